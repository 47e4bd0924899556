(** * P_AsyncWait: property C70, a combinator waits exactly as often as the parts
    it runs. *)
From Verif Require Import M_Async S_Async L_Async S_AsyncWait.

(** A bind that came to a value came to one on the way. *)
Lemma settled_bind_ret {X Y} (t : task X) (k : X -> task Y) y :
  settled (tbind t k) = Ret y -> exists x, settled t = Ret x /\ settled (k x) = Ret y.
Proof. rewrite settled_bind. destruct (settled t) as [x| | |]; cbn; try discriminate. intros E. now exists x. Qed.

Lemma pendings_bind_ret {X Y} (t : task X) (k : X -> task Y) x :
  settled t = Ret x -> pendings (tbind t k) = pendings t + pendings (k x).
Proof. intros E. now rewrite pendings_bind, E. Qed.

Section C70.
  Context {S A : Type} {R : ARewindSequence S A}.

  (** The mappings wait for their parser and for nothing else, borrowed or
      consumed, whatever comes of it. *)
  Theorem C70_pending_mappings :
    (forall O E U (p : aparser S O E) (f : O -> U) s,
       pendings (aparse (AMap p f) s) = pendings (aparse p s) /\
       pendings (aparse_once (AMap p f) s) = pendings (aparse_once p s)) /\
    (forall O E U (p : aparser S O E) (f : E -> U) s,
       pendings (aparse (AMapErr p f) s) = pendings (aparse p s) /\
       pendings (aparse_once (AMapErr p f) s) = pendings (aparse_once p s)) /\
    (forall O E O' E' (from : E -> E') (p : aparser S O E) (f : O -> result O' E') s,
       pendings (aparse (AAndThen from p f) s) = pendings (aparse p s) /\
       pendings (aparse_once (AAndThen from p f) s) = pendings (aparse_once p s)) /\
    (forall E T0 T1 T (i0 : T0 -> T) (i1 : T1 -> T) (p : aparser S (Either T0 T1) E) s,
       pendings (aparse (AUnify i0 i1 p) s) = pendings (aparse p s) /\
       pendings (aparse_once (AUnify i0 i1 p) s) = pendings (aparse_once p s)) /\
    (forall O T0 T1 T (i0 : T0 -> T) (i1 : T1 -> T) (p : aparser S O (Either T0 T1)) s,
       pendings (aparse (AUnifyErr i0 i1 p) s) = pendings (aparse p s) /\
       pendings (aparse_once (AUnifyErr i0 i1 p) s) = pendings (aparse_once p s)).
  Proof.
    repeat split; cbn;
      unfold amap_parse, amap_parse_once, amap_err_parse, amap_err_parse_once, aand_then_parse, aand_then_parse_once,
        aunify_parse, aunify_parse_once, aunify_err_parse, aunify_err_parse_once;
      rewrite pendings_bind;
      (match goal with |- context [settled ?t] => destruct (settled t) as [[o r|e r]| | |] end); cbn;
      try rewrite Nat.add_0_r; auto;
      (match goal with
       | |- context [pendings (match ?x with _ => _ end)] => destruct x
       end); cbn; now rewrite Nat.add_0_r.
  Qed.

  (** [or] and [join], consumed. *)
  Theorem C70_pending_or_once {O0 E0 O1 E1} `{ParseError E0} `{ParseError E1} (p : aparser S O0 E0) (q : aparser S O1 E1) s :
    pendings (aparse_once (AOr p q) s) =
    pendings (aparse_once p s) +
    match settled (aparse_once p s) with
    | Ret (Err e r) =>
        if should_terminate e then 0
        else pendings (a_rewind r (a_anchor s)) +
             match settled (a_rewind r (a_anchor s)) with Ret s' => pendings (aparse_once q s') | _ => 0 end
    | _ => 0
    end.
  Proof.
    cbn. unfold aor_parse_once. cbv zeta. rewrite pendings_bind. f_equal.
    destruct (settled (aparse_once p s)) as [[o r|e r]| | |]; try reflexivity.
    destruct (should_terminate e); cbn; [reflexivity|]. rewrite pendings_bind. f_equal.
    destruct (settled (a_rewind r (a_anchor s))) as [s'| | |]; try reflexivity.
    rewrite pendings_bind. destruct (settled (aparse_once q s')) as [[o1 r1|e1 r1]| | |]; cbn; auto.
    destruct (should_terminate e1); cbn; auto.
  Qed.

  Theorem C70_pending_join_once {O0 E0 O1 E1} (p : aparser S O0 E0) (q : aparser S O1 E1) s :
    pendings (aparse_once (AJoin p q) s) =
    pendings (aparse_once p s) + match settled (aparse_once p s) with Ret (Ok _ r) => pendings (aparse_once q r) | _ => 0 end.
  Proof.
    cbn. unfold ajoin_parse_once. rewrite pendings_bind. f_equal.
    destruct (settled (aparse_once p s)) as [[o r|e r]| | |]; try reflexivity.
    rewrite pendings_bind. destruct (settled (aparse_once q r)) as [[o1 r1|e1 r1]| | |]; cbn; auto.
  Qed.

  (** [optional] waits for its parser and, where that gives up, for the rewind. *)
  Theorem C70_pending_optional {O E} `{ParseError E} (p : aparser S O E) s :
    let waits (run : apfun S O E) := pendings (run s) +
      match settled (run s) with
      | Ret (Err e r) => if should_terminate e then 0 else pendings (a_rewind r (a_anchor s))
      | _ => 0
      end in
    pendings (aparse (AOptional p) s) = waits (aparse p) /\
    pendings (aparse_once (AOptional p) s) = waits (aparse_once p) /\
    pendings (ait_next (aparse_iterative (AOptionalIter p)) true s) = waits (aparse p) /\
    pendings (ait_next (aparse_iterative_once (AOptionalIter p)) true s) = waits (aparse_once p) /\
    pendings (ait_next (aparse_iterative (ARepeatIter p)) tt s) = waits (aparse p).
  Proof.
    cbv zeta. repeat split; cbn; unfold aoptional_parse, aoptional_parse_once, aoptional_next, aoptional_next_once, arepeat_next; cbn;
      unfold aref_parse; rewrite pendings_bind; f_equal;
      (match goal with |- context [settled ?t] => destruct (settled t) as [[o r|e r]| | |] end); try reflexivity;
      destruct (should_terminate e); cbn; auto; rewrite pendings_bind;
      destruct (settled (a_rewind r (a_anchor s))); cbn; now rewrite Nat.add_0_r.
  Qed.

  (** [repeat] waits for its items, the attempt that ends it, and one rewind. *)
  Theorem C70_pending_repeat {O E} `{ParseError E} fuel (p : aparser S O E) s x :
    settled (aparse (ARepeat fuel p) s) = Ret x ->
    repeat_waits (aparse p) s (pendings (aparse (ARepeat fuel p) s)).
  Proof.
    cbn. unfold arepeat_parse. generalize (@nil O) as buf. revert s. induction fuel as [|fuel IH]; intros s buf; cbn [arepeat_loop]; [discriminate|].
    cbv zeta. intros E0. destruct (settled_bind_ret _ _ _ E0) as [[v r|e r] [E1 E2]]; rewrite (pendings_bind_ret _ _ _ E1).
    - eapply RW_item; [exact E1|]. exact (IH _ _ E2).
    - destruct (should_terminate e) eqn:C.
      + cbn. rewrite Nat.add_0_r. eapply RW_cut; eauto.
      + destruct (settled_bind_ret _ _ _ E2) as [s' [E3 _]]. rewrite (pendings_bind_ret _ _ _ E3). cbn. rewrite Nat.add_0_r.
        eapply RW_back; eauto.
  Qed.

  (** The adaptors wait for the session they wrap; [take] that has enough waits for
      nothing. *)
  Section Adaptors.
    Context {St O E : Type} (p : aditer St S O E).

    Theorem C70_pending_adaptors st s :
      (forall T (f : O -> T), pendings (ait_next (aparse_iterative (AMapEach p f)) st s) = pendings (ait_next (aparse_iterative p) st s)) /\
      (forall T (f : O -> option T), pendings (ait_next (aparse_iterative (AMapWhile p f)) st s) = pendings (ait_next (aparse_iterative p) st s)) /\
      (forall T E' `(ParseError E') (from : E -> E') (f : O -> result T E'),
         pendings (ait_next (aparse_iterative (ATryMapEach from p f)) st s) = pendings (ait_next (aparse_iterative p) st s)) /\
      (forall T St2 (st0 st2 : St2) (f : St2 -> O -> St2 * T),
         pendings (ait_next (aparse_iterative (AScan p st0 f)) (st, st2) s) = pendings (ait_next (aparse_iterative p) st s)) /\
      (forall n k, pendings (ait_next (aparse_iterative (ATake p n)) (st, k) s) =
                   if k =? 0 then 0 else pendings (ait_next (aparse_iterative p) st s)).
    Proof.
      repeat split; intros; cbn;
        unfold amap_each_next, amap_while_next, atry_map_each_next, ascan_next, atake_next; cbn;
        try (destruct (k =? 0); [reflexivity|]); rewrite pendings_bind;
        destruct (settled (ait_next (aparse_iterative p) st s)) as [[st' [[v|] r|e r]]| | |]; cbn; try rewrite Nat.add_0_r; auto.
      - destruct (f v) as [|e]; [|destruct (should_terminate e)]; cbn; now rewrite Nat.add_0_r.
      - destruct (f st2 v). cbn. now rewrite Nat.add_0_r.
    Qed.

    (** [fold] waits for the calls it makes; [collect] for one rewind besides. *)
    Theorem C70_pending_fold {Acc} fuel (init : Acc) (f : Acc -> O -> Acc) s x :
      settled (aparse (AFold fuel p init f) s) = Ret x ->
      session_waits (ait_next (aparse_iterative p)) (fun _ _ => 0) (ait_init (aparse_iterative p)) s
        (pendings (aparse (AFold fuel p init f) s)).
    Proof.
      cbn. generalize (ait_init (aparse_iterative p)) as st. generalize init as acc. revert s.
      induction fuel as [|fuel IH]; intros s acc st; cbn [afold_loop]; [discriminate|].
      intros E0. destruct (settled_bind_ret _ _ _ E0) as [[st' [[v|] r|e r]] [E1 E2]]; rewrite (pendings_bind_ret _ _ _ E1); cbn [pendings tret adone].
      - eapply SW_item; [exact E1|]. exact (IH _ _ _ E2).
      - eapply (SW_end (ait_next (aparse_iterative p)) (fun _ _ => 0)), E1.
      - eapply (SW_err (ait_next (aparse_iterative p)) (fun _ _ => 0)), E1.
    Qed.

    Theorem C70_pending_collect {C} (c0 : C) (ext : C -> O -> C) fuel s x :
      settled (aparse (ACollect c0 ext fuel p) s) = Ret x ->
      session_waits (ait_next (aparse_iterative p)) (fun r before => pendings (a_rewind r (a_anchor before)))
        (ait_init (aparse_iterative p)) s (pendings (aparse (ACollect c0 ext fuel p) s)).
    Proof.
      cbn. generalize (ait_init (aparse_iterative p)) as st. generalize c0 as c. revert s.
      set (tl := fun r before => pendings (a_rewind r (a_anchor before))).
      induction fuel as [|fuel IH]; intros s c st; cbn [acollect_loop]; [discriminate|]. cbv zeta.
      intros E0. destruct (settled_bind_ret _ _ _ E0) as [[st' [[v|] r|e r]] [E1 E2]]; rewrite (pendings_bind_ret _ _ _ E1).
      - eapply SW_item; [exact E1|]. exact (IH _ _ _ E2).
      - destruct (settled_bind_ret _ _ _ E2) as [s' [E3 _]]. rewrite (pendings_bind_ret _ _ _ E3). cbn. rewrite Nat.add_0_r.
        eapply (SW_end (ait_next (aparse_iterative p)) tl), E1.
      - destruct (settled_bind_ret _ _ _ E2) as [s' [E3 _]]. rewrite (pendings_bind_ret _ _ _ E3). cbn. rewrite Nat.add_0_r.
        eapply (SW_err (ait_next (aparse_iterative p)) tl), E1.
    Qed.
  End Adaptors.

  (** [bin_expr] waits for its first term, each operator and term, the attempt that
      ends it, and at most one rewind. *)
  Theorem C70_pending_bin_expr {T TE Op OE Expr} `{ParseError TE} `{ParseError OE} `{Operator Op}
      (from_term : T -> Expr) from_bin usize_max overflow_checks fuel (pt : aparser S T TE) (po : aparser S Op OE) s x :
    let e := ABinExpr from_term from_bin usize_max overflow_checks fuel pt po in
    settled (aparse e s) = Ret x ->
    match settled (aparse pt s) with
    | Ret (Ok _ r) => exists n, operands_wait (aparse pt) (aparse po) r n /\ pendings (aparse e s) = pendings (aparse pt s) + n
    | _ => pendings (aparse e s) = pendings (aparse pt s)
    end.
  Proof.
    cbv zeta. cbn. unfold abin_expr_parse, aparse_impl. intros E0. destruct (settled_bind_ret _ _ _ E0) as [y [E1 E2]].
    rewrite (pendings_bind_ret _ _ _ E1). destruct (settled_bind_ret _ _ _ E1) as [[t r|e r] [E3 E4]]; rewrite E3, (pendings_bind_ret _ _ _ E3).
    2: { cbn in E4 |- *. injection E4 as <-. cbn. lia. }
    assert (Z : pendings match y with
        | Ok (e, RErr reason) rest => adone (e, reason) rest
        | Ok (e, ROk _) rest => Now Panic
        | Err e r => @afail S (Expr * Either OE TE) _ e r end = 0) by now destruct y as [[? [?|?]] ?|? ?].
    rewrite Z, Nat.add_0_r. eexists. split; [|reflexivity].
    clear Z E0 E2 E1 E3 s x. revert E4. generalize (@nil (Expr * Op)) as stack. generalize (from_term t) as rhs. clear t. revert r.
    induction fuel as [|fuel IH]; intros s rhs stack; cbn [abin_loop]; [discriminate|]. cbv zeta. intros E0.
    destruct (settled_bind_ret _ _ _ E0) as [[op r|e r] [E1 E2]]; rewrite (pendings_bind_ret _ _ _ E1).
    - cbn [Nat.leb] in E2 |- *. destruct (settled_bind_ret _ _ _ E2) as [[t r1|e r1] [E3 E4]]; rewrite (pendings_bind_ret _ _ _ E3).
      + eapply OW_more; [exact E1|exact E3|]. revert E4. cbn [tbind].
        destruct (insert_loop _ _ _ _ _ _ _) as [[st' rhs']| | |]; try discriminate. apply IH.
      + revert E4. destruct (should_terminate e) eqn:C; cbn [negb].
        * intros _. cbn. rewrite Nat.add_0_r. eapply OW_term_cut; eauto.
        * intros E4. destruct (settled_bind_ret _ _ _ E4) as [s' [E5 _]]. rewrite (pendings_bind_ret _ _ _ E5). cbn. rewrite Nat.add_0_r.
          eapply OW_term_back; eauto.
    - destruct (should_terminate e) eqn:C.
      + cbn. rewrite Nat.add_0_r. eapply OW_op_cut; eauto.
      + destruct (settled_bind_ret _ _ _ E2) as [s' [E3 _]]. rewrite (pendings_bind_ret _ _ _ E3). cbn. rewrite Nat.add_0_r.
        eapply OW_op_back; eauto.
  Qed.

  (** What is counted is determined. *)
  Theorem C70_waits_unique :
    (forall O E `(ParseError E) (run : apfun S O E) s n m, repeat_waits run s n -> repeat_waits run s m -> n = m) /\
    (forall St O E (next : St -> S -> task (St * res S (option O) E)) tail st s n m,
       session_waits next tail st s n -> session_waits next tail st s m -> n = m) /\
    (forall T TE Op OE `(ParseError TE) `(ParseError OE) (t : apfun S T TE) (o : apfun S Op OE) s n m,
       operands_wait t o s n -> operands_wait t o s m -> n = m).
  Proof.
    split; [|split].
    - intros O E PE run s n m D. revert m. induction D as [s v r n X D IH|s e r X C|s e r X C]; intros m D'; inversion D'; subst;
        try congruence.
      assert (r0 = r) by congruence. subst. f_equal. now apply IH.
    - intros St O E next tail st s n m D. revert m. induction D as [st s st' v r n X D IH|st s st' r X|st s st' e r X]; intros m D'; inversion D'; subst;
        try congruence.
      assert (r0 = r) by congruence. assert (st'0 = st') by congruence. subst. f_equal. now apply IH.
    - intros T TE Op OE P0 P1 t o s n m D. revert m.
      induction D as [s a r b r' n X Y D IH|s e r X C|s e r X C|s a r e r' X Y C|s a r e r' X Y C]; intros m D'; inversion D'; subst;
        try congruence; try (assert (r0 = r) by congruence; subst; try congruence; try (assert (r'0 = r') by congruence; subst)); try congruence;
        try reflexivity.
      do 2 f_equal. now apply IH.
  Qed.
End C70.

(** A digit, pending once; a plus sign, pending twice; a rewind pending three
    times: 1 + 2 + 1 for the expression, 2 for the operator that is not there, 3 to
    go back. *)
Definition late_list : ARewindSequence (list nat) (list nat) :=
  {| a_anchor := fun l => l; a_rewind := fun _ a => Later (Later (Later (Now (Ret a)))) |}.
Definition small : aparser (list nat) nat unit :=
  let go (l : list nat) : task (res (list nat) nat unit) :=
    Later (match l with x :: r => if Nat.leb x 9 then tret (Ok x r) else tret (Err tt l) | [] => tret (Err tt l) end) in
  AP go go.
Definition plus_sign : aparser (list nat) nat unit :=
  let go (l : list nat) : task (res (list nat) nat unit) :=
    Later (Later (match l with x :: r => if Nat.eqb x 43 then tret (Ok x r) else tret (Err tt l) | [] => tret (Err tt l) end)) in
  AP go go.
Definition no_cut : ParseError unit := fun _ => false.
Definition left_op : Operator nat := {| precedence := fun _ => 1; associativity := fun _ => M_BinExpr.Left |}.

Example C70_case_bin_expr :
  let e := @ABinExpr _ _ late_list _ _ _ _ _ no_cut no_cut left_op (fun n => [n]) (fun a _ b => a ++ b) 255 true 9 small plus_sign in
  pendings (aparse e [1; 43; 2; 50]) = 1 + (2 + (1 + (2 + 3))) /\
  exists x, settled (aparse e [1; 43; 2; 50]) = Ret (Ok x [50]).
Proof. split; [reflexivity|]. eexists. reflexivity. Qed.

Example C70_case_collect :
  pendings (aparse (@ACollect _ _ late_list _ _ _ _ [] (fun c v => c ++ [v]) 9 (@ARepeatIter _ _ late_list _ _ no_cut small)) [1; 2; 50])
  = 1 + (1 + ((1 + 3) + 3)).
Proof. reflexivity. Qed.

Print Assumptions C70_pending_mappings.
Print Assumptions C70_pending_or_once.
Print Assumptions C70_pending_join_once.
Print Assumptions C70_pending_optional.
Print Assumptions C70_pending_repeat.
Print Assumptions C70_pending_adaptors.
Print Assumptions C70_pending_fold.
Print Assumptions C70_pending_collect.
Print Assumptions C70_pending_bin_expr.
Print Assumptions C70_waits_unique.
