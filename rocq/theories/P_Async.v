(** * P_Async: property C70, pending futures do not change results. *)
From Verif Require Import M_Async S_Async L_Async.

Section C70.
  Context {S A : Type} {R : ARewindSequence S A}.
  Local Instance settled_R : RewindSequence S A := settled_sequence R.

  (** Every combinator: polling its future to the end gives what the direct
      style gives for the ends of its parts, however often they were pending. *)
  Theorem C70_or {O0 E0 O1 E1} `{ParseError E0} `{ParseError E1} (p : aparser S O0 E0) (q : aparser S O1 E1) :
    agree (settled_parser (AOr p q)) (Or (settled_parser p) (settled_parser q)).
  Proof. intros s. split; cbn; unfold aor_parse, aor_parse_once, or_parse, or_parse_once; cbv zeta; cbn; settle. Qed.

  Theorem C70_join {O0 E0 O1 E1} (p : aparser S O0 E0) (q : aparser S O1 E1) :
    agree (settled_parser (AJoin p q)) (Join (settled_parser p) (settled_parser q)).
  Proof. intros s. split; cbn; unfold ajoin_parse, ajoin_parse_once, join_parse, join_parse_once; cbn; settle. Qed.

  Theorem C70_map {O E U} (p : aparser S O E) (f : O -> U) :
    agree (settled_parser (AMap p f)) (Map (settled_parser p) f).
  Proof. intros s. split; cbn; unfold amap_parse, amap_parse_once, map_parse, map_parse_once; cbn; settle. Qed.

  Theorem C70_map_err {O E U} (p : aparser S O E) (f : E -> U) :
    agree (settled_parser (AMapErr p f)) (MapErr (settled_parser p) f).
  Proof. intros s. split; cbn; unfold amap_err_parse, amap_err_parse_once, map_err_parse, map_err_parse_once; cbn; settle. Qed.

  Theorem C70_and_then {O E O' E'} (from : E -> E') (p : aparser S O E) (f : O -> result O' E') :
    agree (settled_parser (AAndThen from p f)) (AndThen from (settled_parser p) f).
  Proof. intros s. split; cbn; unfold aand_then_parse, aand_then_parse_once, and_then_parse, and_then_parse_once; cbn; settle. Qed.

  Theorem C70_unify {E T0 T1 T} (i0 : T0 -> T) (i1 : T1 -> T) (p : aparser S (Either T0 T1) E) :
    agree (settled_parser (AUnify i0 i1 p)) (Unify i0 i1 (settled_parser p)).
  Proof. intros s. split; cbn; unfold aunify_parse, aunify_parse_once, unify_parse, unify_parse_once; cbn; settle. Qed.

  Theorem C70_unify_err {O T0 T1 T} (i0 : T0 -> T) (i1 : T1 -> T) (p : aparser S O (Either T0 T1)) :
    agree (settled_parser (AUnifyErr i0 i1 p)) (UnifyErr i0 i1 (settled_parser p)).
  Proof. intros s. split; cbn; unfold aunify_err_parse, aunify_err_parse_once, unify_err_parse, unify_err_parse_once; cbn; settle. Qed.

  Theorem C70_ref_boxed {O E} (p : aparser S O E) :
    agree (settled_parser (ARef p)) (Ref (settled_parser p)) /\
    agree (settled_parser (ABoxed p)) (Boxed (settled_parser p)).
  Proof. split; intros s; split; reflexivity. Qed.

  Theorem C70_optional {O E} `{ParseError E} (p : aparser S O E) :
    agree (settled_parser (AOptional p)) (Optional (settled_parser p)).
  Proof. intros s. split; cbn; unfold aoptional_parse, aoptional_parse_once, optional_parse, optional_parse_once; cbv zeta; cbn; settle. Qed.

  Lemma repeat_loop_settled {O E} `{ParseError E} (p : aparser S O E) fuel : forall buf s,
    settled (arepeat_loop fuel p buf s) = repeat_loop fuel (settled_parser p) buf s.
  Proof.
    induction fuel as [|fuel IH]; intros buf s; cbn [arepeat_loop repeat_loop]; [reflexivity|]. cbv zeta. cbn.
    rewrite settled_bind. apply bind_ext. intros [v r|e r]; [apply IH|]. settle.
  Qed.

  Theorem C70_repeat {O E} `{ParseError E} fuel (p : aparser S O E) :
    agree (settled_parser (ARepeat fuel p)) (Repeat fuel (settled_parser p)).
  Proof. intros s. split; apply repeat_loop_settled. Qed.

  (** Iterative parsers. *)
  Theorem C70_optional_iter {O E} `{ParseError E} (p : aparser S O E) :
    diter_agree (settled_diter (AOptionalIter p)) (OptionalIter (settled_parser p)).
  Proof.
    split; (split; [reflexivity|]); intros st s; cbn;
      unfold aoptional_next, aoptional_next_once, optional_next, optional_next_once; cbv zeta; cbn; settle.
  Qed.

  Theorem C70_repeat_iter {O E} `{ParseError E} (p : aparser S O E) :
    diter_agree (settled_diter (ARepeatIter p)) (RepeatIter (settled_parser p)).
  Proof.
    split; (split; [reflexivity|]); intros st s; cbn; unfold arepeat_next, repeat_next; cbv zeta; cbn; settle.
  Qed.

  Section Adaptors.
    Context {St O E : Type} (p : aditer St S O E).

    Theorem C70_map_each {T} (f : O -> T) :
      diter_agree (settled_diter (AMapEach p f)) (MapEach (settled_diter p) f).
    Proof. split; (split; [reflexivity|]); intros st s; cbn; unfold amap_each_next, map_each_next; cbn; settle. Qed.

    Theorem C70_map_while {T} (f : O -> option T) :
      diter_agree (settled_diter (AMapWhile p f)) (MapWhile (settled_diter p) f).
    Proof. split; (split; [reflexivity|]); intros st s; cbn; unfold amap_while_next, map_while_next; cbn; settle. Qed.

    Theorem C70_try_map_each {T E'} `{ParseError E'} (from : E -> E') (f : O -> result T E') :
      diter_agree (settled_diter (ATryMapEach from p f)) (TryMapEach from (settled_diter p) f).
    Proof. split; (split; [reflexivity|]); intros st s; cbn; unfold atry_map_each_next, try_map_each_next; cbn; settle. Qed.

    Theorem C70_scan {T St2} (st0 : St2) (f : St2 -> O -> St2 * T) :
      diter_agree (settled_diter (AScan p st0 f)) (Scan (settled_diter p) st0 f).
    Proof.
      split; (split; [reflexivity|]); intros [st st2] s; cbn; unfold ascan_next, scan_next; cbn;
        rewrite settled_bind; apply bind_ext; intros [st' [[v|] r|e r]]; try reflexivity; now destruct (f st2 v).
    Qed.

    Theorem C70_take n : diter_agree (settled_diter (ATake p n)) (Take (settled_diter p) n).
    Proof. split; (split; [reflexivity|]); intros [st k] s; cbn; unfold atake_next, take_next; cbn; settle. Qed.

    Lemma fold_loop_settled {Acc} (i : aiter St S O E) (f : Acc -> O -> Acc) fuel : forall st acc s,
      settled (afold_loop fuel i f st acc s) = fold_loop fuel (settled_iter i) f st acc s.
    Proof.
      induction fuel as [|fuel IH]; intros st acc s; cbn [afold_loop fold_loop]; [reflexivity|]. cbn.
      rewrite settled_bind. apply bind_ext. intros [st' [[v|] r|e r]]; try reflexivity. apply IH.
    Qed.

    Theorem C70_fold {Acc} fuel (init : Acc) (f : Acc -> O -> Acc) :
      agree (settled_parser (AFold fuel p init f)) (Fold fuel (settled_diter p) init f).
    Proof. intros s. split; apply fold_loop_settled. Qed.

    Lemma collect_loop_settled {C} (ext : C -> O -> C) (i : aiter St S O E) fuel : forall st c s,
      settled (acollect_loop ext fuel i st c s) = collect_loop ext fuel (settled_iter i) st c s.
    Proof.
      induction fuel as [|fuel IH]; intros st c s; cbn [acollect_loop collect_loop]; [reflexivity|]. cbv zeta. cbn.
      rewrite settled_bind. apply bind_ext. intros [st' [[v|] r|e r]]; [apply IH| |]; settle.
    Qed.

    Theorem C70_collect {C} (c0 : C) (ext : C -> O -> C) fuel :
      agree (settled_parser (ACollect c0 ext fuel p)) (Collect c0 ext fuel (settled_diter p)).
    Proof. intros s. split; apply collect_loop_settled. Qed.
  End Adaptors.

  Section Expr.
    Context {T TE Op OE Expr : Type} `{ParseError TE} `{ParseError OE} `{Operator Op}.
    Context (from_term : T -> Expr) (from_bin : Expr -> Op -> Expr -> Expr) (usize_max : nat) (overflow_checks : bool).

    Lemma bin_loop_settled (pt : aparser S T TE) (po : aparser S Op OE) prec fuel : forall stack rhs s,
      settled (abin_loop from_term from_bin usize_max overflow_checks fuel pt po prec stack rhs s)
      = bin_loop from_term from_bin usize_max overflow_checks fuel (settled_parser pt) (settled_parser po) prec stack rhs s.
    Proof.
      induction fuel as [|fuel IH]; intros stack rhs s; cbn [abin_loop bin_loop]; [reflexivity|]. cbv zeta. cbn.
      rewrite settled_bind. apply bind_ext. intros [op r|e r]; [|settle].
      destruct (prec <=? precedence op); [|reflexivity].
      rewrite settled_bind. apply bind_ext. intros [t r1|e r1]; [|settle].
      destruct (insert_loop from_bin usize_max overflow_checks stack rhs op (from_term t)) as [[st' rhs']| | |]; try reflexivity.
      apply IH.
    Qed.

    Theorem C70_bin_expr fuel (pt : aparser S T TE) (po : aparser S Op OE) :
      agree (settled_parser (ABinExpr from_term from_bin usize_max overflow_checks fuel pt po))
            (BinExpr from_term from_bin usize_max overflow_checks fuel (settled_parser pt) (settled_parser po)).
    Proof.
      assert (X : forall s, settled (abin_expr_parse from_term from_bin usize_max overflow_checks fuel pt po s)
        = bin_expr_parse from_term from_bin usize_max overflow_checks fuel (settled_parser pt) (settled_parser po) s).
      { intros s. unfold abin_expr_parse, bin_expr_parse, aparse_impl, parse_impl. rewrite !settled_bind. cbn.
        destruct (settled (aparse pt s)) as [[t r|e r]| | |]; cbn; try reflexivity.
        rewrite bin_loop_settled. apply bind_ext. intros [[e [x|x]] r1|e r1]; reflexivity. }
      intros s. split; apply X.
    Qed.
  End Expr.

  (** A combinator adds no waiting of its own: it is pending exactly as often as
      the parts it runs. *)
  Theorem C70_pending_or {O0 E0 O1 E1} `{ParseError E0} `{ParseError E1} (p : aparser S O0 E0) (q : aparser S O1 E1) s :
    pendings (aparse (AOr p q) s) =
    pendings (aparse p s) +
    match settled (aparse p s) with
    | Ret (Err e r) =>
        if should_terminate e then 0
        else pendings (a_rewind r (a_anchor s)) +
             match settled (a_rewind r (a_anchor s)) with Ret s' => pendings (aparse q s') | _ => 0 end
    | _ => 0
    end.
  Proof.
    cbn. unfold aor_parse. cbv zeta. rewrite pendings_bind. f_equal.
    destruct (settled (aparse p s)) as [[o r|e r]| | |]; try reflexivity.
    destruct (should_terminate e); cbn; [reflexivity|]. rewrite pendings_bind. f_equal.
    destruct (settled (a_rewind r (a_anchor s))) as [s'| | |]; try reflexivity.
    rewrite pendings_bind. destruct (settled (aparse q s')) as [[o1 r1|e1 r1]| | |]; cbn; auto.
    destruct (should_terminate e1); cbn; auto.
  Qed.

  Theorem C70_pending_join {O0 E0 O1 E1} (p : aparser S O0 E0) (q : aparser S O1 E1) s :
    pendings (aparse (AJoin p q) s) =
    pendings (aparse p s) + match settled (aparse p s) with Ret (Ok _ r) => pendings (aparse q r) | _ => 0 end.
  Proof.
    cbn. unfold ajoin_parse. rewrite pendings_bind. f_equal.
    destruct (settled (aparse p s)) as [[o r|e r]| | |]; try reflexivity.
    rewrite pendings_bind. destruct (settled (aparse q r)) as [[o1 r1|e1 r1]| | |]; cbn; auto.
  Qed.

  (** If no part is ever pending, neither is the whole: over borrowed input a
      parse is ready at the first poll. *)
  Section Prompt.
    Context (PS : prompt_sequence R).

    Theorem C70_prompt_or {O0 E0 O1 E1} `{ParseError E0} `{ParseError E1} (p : aparser S O0 E0) (q : aparser S O1 E1) :
      prompt p -> prompt q -> prompt (AOr p q).
    Proof. intros Hp Hq s. split; cbn; unfold aor_parse, aor_parse_once; cbv zeta; calm. Qed.

    Theorem C70_prompt_optional {O E} `{ParseError E} (p : aparser S O E) : prompt p -> prompt (AOptional p).
    Proof. intros Hp s. split; cbn; unfold aoptional_parse, aoptional_parse_once; cbv zeta; calm. Qed.

    Theorem C70_prompt_repeat {O E} `{ParseError E} fuel (p : aparser S O E) : prompt p -> prompt (ARepeat fuel p).
    Proof.
      intros Hp s.
      assert (X : forall fuel buf s, pendings (arepeat_loop fuel p buf s) = 0).
      { clear s. clear fuel. induction fuel as [|fuel IH]; intros buf s; cbn [arepeat_loop]; cbv zeta; calm. }
      split; apply X.
    Qed.

    Theorem C70_prompt_iter {O E} `{ParseError E} (p : aparser S O E) :
      prompt p -> prompt_iter (AOptionalIter p) /\ prompt_iter (ARepeatIter p).
    Proof.
      intros Hp. split; intros st s; split; cbn; unfold aoptional_next, aoptional_next_once, arepeat_next, ARef, aref_parse; cbv zeta; cbn [aparse aparse_once]; calm.
    Qed.

    Theorem C70_prompt_collect {St O E C} (p : aditer St S O E) (c0 : C) (ext : C -> O -> C) fuel :
      prompt_iter p -> prompt (ACollect c0 ext fuel p).
    Proof.
      intros Hp s.
      assert (X : forall i, i = aparse_iterative p \/ i = aparse_iterative_once p ->
                  forall fuel st c s, pendings (acollect_loop ext fuel i st c s) = 0).
      { clear s fuel. intros i Hi. induction fuel as [|fuel IH]; intros st c s; cbn [acollect_loop]; [reflexivity|]. cbv zeta.
        assert (Y : pendings (ait_next i st s) = 0) by (destruct (Hp st s); destruct Hi; now subst i).
        rewrite pendings_bind, Y. calm; try apply IH. }
      split; apply X; auto.
    Qed.

    Theorem C70_prompt_bin_expr {T TE Op OE Expr} `{ParseError TE} `{ParseError OE} `{Operator Op}
        (from_term : T -> Expr) from_bin usize_max overflow_checks fuel (pt : aparser S T TE) (po : aparser S Op OE) :
      prompt pt -> prompt po -> prompt (ABinExpr from_term from_bin usize_max overflow_checks fuel pt po).
    Proof.
      intros Ht Ho s.
      assert (X : forall fuel prec stack rhs s,
        pendings (abin_loop from_term from_bin usize_max overflow_checks fuel pt po prec stack rhs s) = 0).
      { clear s fuel. induction fuel as [|fuel IH]; intros prec stack rhs s; cbn [abin_loop]; cbv zeta; calm. cbn.
        destruct (insert_loop _ _ _ _ _ _ _) as [[st' rhs']| | |]; auto. }
      assert (Y : forall s, pendings (aparse_impl from_term from_bin usize_max overflow_checks fuel pt po s 0) = 0).
      { intros s'. unfold aparse_impl. rewrite pendings_bind, (proj1 (Ht s')).
        destruct (settled (aparse pt s')) as [[t r|e r]| | |]; cbn; auto. }
      split; cbn; unfold abin_expr_parse; rewrite pendings_bind, Y; cbn;
        destruct (settled _) as [[[e [x|x]] r|e r]| | |]; reflexivity.
    Qed.
  End Prompt.

  (** These never rewind. *)
  Theorem C70_prompt_others :
    (forall O0 E0 O1 E1 (p : aparser S O0 E0) (q : aparser S O1 E1), prompt p -> prompt q -> prompt (AJoin p q)) /\
    (forall O E U (p : aparser S O E) (f : O -> U), prompt p -> prompt (AMap p f)) /\
    (forall O E U (p : aparser S O E) (f : E -> U), prompt p -> prompt (AMapErr p f)) /\
    (forall O E O' E' (from : E -> E') (p : aparser S O E) (f : O -> result O' E'), prompt p -> prompt (AAndThen from p f)) /\
    (forall E T0 T1 T (i0 : T0 -> T) (i1 : T1 -> T) (p : aparser S (Either T0 T1) E), prompt p -> prompt (AUnify i0 i1 p)) /\
    (forall O T0 T1 T (i0 : T0 -> T) (i1 : T1 -> T) (p : aparser S O (Either T0 T1)), prompt p -> prompt (AUnifyErr i0 i1 p)) /\
    (forall O E (p : aparser S O E), prompt p -> prompt (ARef p) /\ prompt (ABoxed p)) /\
    (forall St O E Acc (p : aditer St S O E) fuel (init : Acc) f, prompt_iter p -> prompt (AFold fuel p init f)).
  Proof.
    split; [|split; [|split; [|split; [|split; [|split; [|split]]]]]].
    - intros. intros s. split; cbn; unfold ajoin_parse, ajoin_parse_once; calm.
    - intros. intros s. split; cbn; unfold amap_parse, amap_parse_once; calm.
    - intros. intros s. split; cbn; unfold amap_err_parse, amap_err_parse_once; calm.
    - intros. intros s. split; cbn; unfold aand_then_parse, aand_then_parse_once; calm.
    - intros. intros s. split; cbn; unfold aunify_parse, aunify_parse_once; calm.
    - intros. intros s. split; cbn; unfold aunify_err_parse, aunify_err_parse_once; calm.
    - intros O E p Hp. split; intros s; destruct (Hp s); split; assumption.
    - intros St O E Acc p fuel init f Hp s.
      assert (X : forall i, i = aparse_iterative p \/ i = aparse_iterative_once p ->
                  forall fuel st acc s, pendings (afold_loop fuel i f st acc s) = 0).
      { clear s fuel. intros i Hi. induction fuel as [|fuel IH]; intros st acc s; cbn [afold_loop]; [reflexivity|].
        assert (Y : pendings (ait_next i st s) = 0) by (destruct (Hp st s); destruct Hi; now subst i).
        rewrite pendings_bind, Y. calm; try apply IH. }
      split; apply X; auto.
  Qed.
End C70.

(** Lists, whose rewinding is pending once, and a parser for one number, pending
    twice each time it is run. *)
Definition slow_list : ARewindSequence (list nat) (list nat) :=
  {| a_anchor := fun l => l; a_rewind := fun _ a => Later (Now (Ret a)) |}.
Definition slow (n : nat) : aparser (list nat) nat unit :=
  let go (l : list nat) : task (res (list nat) nat unit) :=
    Later (Later (match l with
                  | x :: r => if Nat.eqb x n then tret (Ok x r) else tret (Err tt r)
                  | [] => tret (Err tt [])
                  end)) in
  AP go go.
Definition never_cut : ParseError unit := fun _ => false.

(** [1] is tried (2), rewound (1), [2] found (2). *)
Example C70_case_or :
  pendings (aparse (@AOr _ _ slow_list _ _ _ _ never_cut never_cut (slow 1) (slow 2)) [2; 3]) = 5 /\
  settled (aparse (@AOr _ _ slow_list _ _ _ _ never_cut never_cut (slow 1) (slow 2)) [2; 3])
  = Ret (Ok (Last 2) [3]).
Proof. split; reflexivity. Qed.

(** Three found, one missed and rewound. *)
Example C70_case_repeat :
  pendings (aparse (@ARepeat _ _ slow_list _ _ never_cut 9 (slow 1)) [1; 1; 1; 4]) = 9 /\
  exists r, settled (aparse (@ARepeat _ _ slow_list _ _ never_cut 9 (slow 1)) [1; 1; 1; 4]) = Ret r /\
            match r with Ok v s => s = [4] | Err _ _ => False end.
Proof. split; [reflexivity|]. eexists. split; reflexivity. Qed.

(** Lists whose rewinding is ready at once. *)
Definition quick_list : ARewindSequence (list nat) (list nat) :=
  {| a_anchor := fun l => l; a_rewind := fun _ a => Now (Ret a) |}.
Example C70_case_prompt : prompt_sequence quick_list.
Proof. intros s a. reflexivity. Qed.

Print Assumptions C70_or.
Print Assumptions C70_join.
Print Assumptions C70_map.
Print Assumptions C70_map_err.
Print Assumptions C70_and_then.
Print Assumptions C70_unify.
Print Assumptions C70_unify_err.
Print Assumptions C70_ref_boxed.
Print Assumptions C70_optional.
Print Assumptions C70_repeat.
Print Assumptions C70_optional_iter.
Print Assumptions C70_repeat_iter.
Print Assumptions C70_map_each.
Print Assumptions C70_map_while.
Print Assumptions C70_try_map_each.
Print Assumptions C70_scan.
Print Assumptions C70_take.
Print Assumptions C70_fold.
Print Assumptions C70_collect.
Print Assumptions C70_bin_expr.
Print Assumptions C70_pending_or.
Print Assumptions C70_pending_join.
Print Assumptions C70_prompt_or.
Print Assumptions C70_prompt_optional.
Print Assumptions C70_prompt_repeat.
Print Assumptions C70_prompt_iter.
Print Assumptions C70_prompt_collect.
Print Assumptions C70_prompt_bin_expr.
Print Assumptions C70_prompt_others.
