(** * P_BinMem: C106, BinExprParser on the memory it uses. *)
From Verif Require Import L_BinMem P_BinExpr.

Local Arguments inline : simpl never.

Section Properties.
  Context {S A : Type} {RS : RewindSequence S A}.
  Context {T TE Op OE Expr : Type} {PT : ParseError TE} {PO : ParseError OE} {OP : Operator Op}.
  Context (from_term : T -> Expr) (from_bin : Expr -> Op -> Expr -> Expr) (usize_max : nat) (overflow_checks : bool).
  Context (size isize_max : nat).
  Context (term : dparser S T TE) (op : dparser S Op OE).
  Notation on_memory fuel := (bin_expr_mem from_term from_bin usize_max overflow_checks size isize_max fuel term op).
  Notation on_list fuel := (bin_expr_parse from_term from_bin usize_max overflow_checks fuel term op).
  Notation pair_ := (sequence (behaves (parse op)) (behaves (parse term))).

  (** Whatever the two parsers are and do, also when they panic: the vector
      gives the answer a list would, frees all it allocated once, and drops no
      operand of an expression that is returned.  Only the address space can
      be too small. *)
  Theorem C106_same_answer_partial fuel (input : S) : 0 < size -> 4 <= isize_max ->
    match on_memory fuel input with
    | Ret (M, r) => r = on_list fuel input /\ all_freed M /\ (forall x s, r = Ret (Ok x s) -> dropped (log M) = [])
    | Panic => isize_max < 2 * fuel * size
    | UB | OutOfFuel => False
    end.
  Proof.
    intros Hs H4. unfold bin_expr_mem, parse_impl_mem, bin_expr_parse, parse_impl.
    assert (E0 : all_freed (@mem_empty (Expr * Op)) /\ dropped (log (@mem_empty (Expr * Op))) = []).
    { split; [|reflexivity]. split; [|split]; constructor. }
    destruct (parse term input) as [[t m|e m]| | |] eqn:E; cbn [bind fst snd]; try (destruct E0; auto; fail).
    destruct (new_ok (Expr := Expr) (Op := Op) size isize_max H4) as (st & -> & I1 & D1 & _). cbn [bind].
    pose proof (loop_same from_term from_bin usize_max overflow_checks size isize_max term op 0 Hs fuel [] st (from_term t) m I1 D1) as G.
    destruct (bin_loop_mem _ _ _ _ _ _ _ _ _ _ _ _ _) as [[M r]| | |]; cbn [bind fst snd]; auto.
    destruct G as (-> & G1 & G2). split; [reflexivity|]. split; [auto|]. intros x s.
    destruct (bin_loop _ _ _ _ _ _ _ _ _ _ _) as [[? ?|? ?]| | |]; auto; discriminate.
  Qed.

  (** A term, a maximal chain of operators and terms. *)
  Context (input : S) (t : T) (m : S) (ps : list (Op * T)) (r : S).
  Context (Ht : parse term input = Ret (Ok t m)) (Hps : many pair_ m ps r) (Hend : forall x q, ~ pair_ r (Succ x q)).
  Context (Hmax : forall o, In o (map fst ps) -> associativity o = Left -> precedence o < usize_max).
  Notation ops := (map fst ps).

  Lemma ops_in_range : Forall (in_range usize_max) ops.
  Proof. apply Forall_forall. exact Hmax. Qed.

  Lemma ended : forall o q y s, parse op r = Ret (Ok o q) -> 0 <= precedence o -> parse term q = Ret (Ok y s) -> False.
  Proof. intros o q y s E1 _ E2. apply (Hend (o, y) s). eapply sq_ok; eassumption. Qed.

  Definition as_said fuel : Prop :=
    exists M, on_memory fuel input = Ret (M, on_list fuel input) /\ all_freed M /\
      (allocated (log M) = [] <-> never_more_than 4 ops) /\
      map snd (dropped (log M)) = match on_list fuel input with Ret (Ok _ _) => [] | _ => waiting ops end.

  Lemma run_mem fuel bound : 4 <= isize_max -> length ps < fuel -> never_more_than bound ops ->
    bound <= 4 \/ (0 < size /\ Nat.max 4 (2 * bound) * size <= isize_max) -> as_said fuel.
  Proof.
    intros H4 Hf Hb Hr. unfold as_said, bin_expr_mem, parse_impl_mem, bin_expr_parse, parse_impl. rewrite Ht. cbn [bind].
    destruct (new_ok (Expr := Expr) (Op := Op) size isize_max H4) as (st & -> & I1 & D1 & J1 & C1). cbn [bind].
    destruct (chain_mem from_term from_bin usize_max overflow_checks size isize_max term op m ps r Hps ops_in_range bound [] [] st (from_term t) I1 D1 J1 eq_refl (Forall_nil _) Hb)
      as (stack' & st' & rhs' & Z1 & Z2 & Z3 & Z4 & Z5 & Z6 & Z7 & Z8 & Z9).
    { rewrite C1. exact Hr. }
    replace fuel with (length ps + Datatypes.S (fuel - length ps - 1)) by lia. rewrite Z1, Z2.
    destruct (last_ok from_term from_bin usize_max overflow_checks size isize_max term op 0 (fuel - length ps - 1) stack' st' rhs' r Z3 Z4 ended) as (M & -> & L1 & L2 & L3).
    cbn [bind fst snd]. exists M. split; [reflexivity|]. split; [exact L1|]. split.
    - assert (X : allocated (log M) = [] <-> count st' = 0).
      { rewrite <- L2. split; [intros ->; reflexivity|apply length_zero_iff_nil]. }
      rewrite X, <- (proj2 Z5). split.
      + intros E a b Eab. rewrite E in Z9. exact (Z9 a b Eab).
      + intros K. rewrite Z7, C1; [reflexivity|]. rewrite C1. exact K.
    - rewrite L3. pose proof (loop_reason from_term from_bin usize_max overflow_checks term op (Datatypes.S (fuel - length ps - 1)) stack' rhs' r) as NR.
      assert (W : map snd (rev stack') = waiting ops) by (rewrite map_rev, Z6; apply rev_involutive).
      destruct (bin_loop _ _ _ _ _ _ _ _ _ _ _) as [[[e [x|x]] s|e s]| | |]; cbn [bind]; auto. destruct (NR e x s eq_refl).
  Qed.

  (** How much memory: with entries of some size the vector goes to the heap
      exactly if more than four operators wait at some time; if the parse fails
      or panics those waiting then are dropped. *)
  Theorem C106_heap_exact_partial fuel bound : 0 < size -> 4 <= isize_max -> length ps < fuel ->
    never_more_than bound ops -> Nat.max 4 (2 * bound) * size <= isize_max -> as_said fuel.
  Proof. intros Hs H4 Hf Hb Hr. eapply run_mem; eauto. Qed.

  (** Up to four waiting operators need no heap, whatever the size. *)
  Theorem C106_inline fuel : 4 <= isize_max -> length ps < fuel -> never_more_than 4 ops -> as_said fuel.
  Proof. intros H4 Hf Hb. eapply run_mem; eauto. Qed.

  (** Up to four precedences, all grouping to the left, are enough for that. *)
  Theorem C106_four_levels fuel levels : 4 <= isize_max -> length ps < fuel -> length levels <= 4 ->
    (forall o, In o ops -> associativity o = Left /\ In (precedence o) levels) ->
    exists M, on_memory fuel input = Ret (M, on_list fuel input) /\ allocated (log M) = [].
  Proof.
    intros H4 Hf Hl Ho. assert (N4 : never_more_than 4 ops).
    { intros a b E. eapply Nat.le_trans; [apply left_low with (levels := levels)|exact Hl]. apply Forall_forall. intros o Hin.
      apply Ho. rewrite E. apply in_or_app. auto. }
    destruct (C106_inline fuel H4 Hf N4) as (M & E & _ & G & _). exists M. split; [exact E|]. now apply G.
  Qed.

  (** Entries of size zero: one waiting operator too many is undefined
      behaviour, and otherwise there is none. *)
  Theorem C106_zero_sized_exact fuel : size = 0 -> 8 <= isize_max -> length ps < fuel ->
    (on_memory fuel input = UB <-> ~ never_more_than 4 ops) /\ (never_more_than 4 ops -> as_said fuel).
  Proof.
    intros Hz H8 Hf. split; [|apply C106_inline; auto; lia]. split.
    - intros E K. destruct (C106_inline fuel ltac:(lia) Hf K) as (M & E' & _). congruence.
    - intros K. destruct (low_dec 4 ops []) as [Y|Y]; [destruct K; exact Y|].
      unfold bin_expr_mem, parse_impl_mem. rewrite Ht. destruct (new_ok (Expr := Expr) (Op := Op) size isize_max ltac:(unfold inline; lia)) as (st & -> & I1 & D1 & _ & C1). cbn [bind].
      replace fuel with (length ps + (fuel - length ps)) by lia.
      rewrite (chain_zst from_term from_bin usize_max overflow_checks size isize_max term op m ps r Hz ltac:(unfold inline; lia) Hps ops_in_range [] [] st (from_term t) (fuel - length ps) I1 D1 C1 eq_refl (Forall_nil _) Y).
      reflexivity.
  Qed.
End Properties.

(** The operators that wait are those on the right edge of the tree of what
    was read so far. *)
Theorem C106_right_edge {T Op} {OP : Operator Op} (tr : tree T Op) t ps :
  reading tr = (t, ps) -> respects tr -> right_edge tr = waiting (map fst ps).
Proof. intros E R. rewrite (spine_waits tr R), E. reflexivity. Qed.

(** Safe code can make entries of size zero: an expression type without
    content and one operator, grouping to the right.  Six terms. *)
Inductive arrow := Arrow.
#[export] Instance arrow_operator : Operator arrow := { precedence _ := 0; associativity _ := Right }.
Definition dot : dparser (slice nat) unit (Miss unit) := on_item (fun x => if Nat.even x then Some tt else None).
Definition arrow_sign : dparser (slice nat) arrow (Miss unit) := on_item (fun x => if x =? 1 then Some Arrow else None).
Theorem C106_zero_sized_refuted usize_max overflow_checks isize_max : 8 <= isize_max ->
  exists (term : dparser (slice nat) unit (Miss unit)) (op : dparser (slice nat) arrow (Miss unit)) input rest,
    bin_expr_parse (fun _ => tt) (fun _ _ _ => tt) usize_max overflow_checks 9 term op input = Ret (Ok (tt, First (MkMiss tt)) rest) /\
    bin_expr_mem (fun _ => tt) (fun _ _ _ => tt) usize_max overflow_checks 0 isize_max 9 term op input = UB.
Proof.
  intros H. exists dot, arrow_sign, (nums [0; 1; 0; 1; 0; 1; 0; 1; 0; 1; 0]), (Slice 1 11 []). split; [reflexivity|].
  refine (proj2 (proj1 (C106_zero_sized_exact (fun _ => tt) (fun _ _ _ => tt) usize_max overflow_checks 0 isize_max dot arrow_sign
    (nums [0; 1; 0; 1; 0; 1; 0; 1; 0; 1; 0]) tt (Slice 1 1 [1; 0; 1; 0; 1; 0; 1; 0; 1; 0]) (repeat (Arrow, tt) 5) (Slice 1 11 []) eq_refl _ _ _ 9 eq_refl H _)) _).
  - repeat (eapply many_cons; [eapply sq_ok; reflexivity|]). apply many_nil.
  - intros x q P. inversion P as [? ? mid ? ? E1 E2| | | | | |]; subst. discriminate.
  - intros [] _. discriminate.
  - cbn. lia.
  - intros K. specialize (K (repeat Arrow 5) [] eq_refl). cbn in K. lia.
Qed.

(** ** Cases *)
(** [2 ^ 2 ^ 2 ^ 2 ^ 2 ^ 2] goes to the heap and comes back; [2 + 4 * 6 ^ 8 ^ 0 + 2] stays. *)
Example C106_case_heap :
  match bin_expr_mem Leaf Node 9 true 16 1000 9 number (operator 9) (nums [2; 5; 2; 5; 2; 5; 2; 5; 2; 5; 2]) with
  | Ret (M, r) => length (allocated (log M)) = 1 /\ length (freed (log M)) = 1 /\
      r = bin_expr_parse Leaf Node 9 true 9 number (operator 9) (nums [2; 5; 2; 5; 2; 5; 2; 5; 2; 5; 2]) /\
      exists x s, r = Ret (Ok x s)
  | _ => False
  end.
Proof. vm_compute. repeat apply conj; auto. eexists. eexists. reflexivity. Qed.
Example C106_case_inline :
  match bin_expr_mem Leaf Node 9 true 16 1000 9 number (operator 9) (nums [2; 1; 4; 3; 6; 5; 8; 5; 0; 1; 2; 3; 9]) with
  | Ret (M, Ret (Ok (x, _) rest)) => allocated (log M) = [] /\ dropped (log M) = [] /\ sl_data rest = [3; 9] /\
      right_edge x = [Plus] /\ waiting [Plus; Times; Power; Power] = [Plus; Times; Power; Power]
  | _ => False
  end.
Proof. vm_compute. auto 6. Qed.
(** A fatal term: the two operands waiting are dropped. *)
Example C106_case_dropped :
  match bin_expr_mem Leaf Node 9 true 16 1000 9 (MapErr number (fun _ => MkFatal tt)) (operator 9) (nums [2; 1; 4; 3; 6; 5; 5]) with
  | Ret (M, Ret (Err (Last _) _)) => dropped (log M) = [(Leaf 2, Plus); (Leaf 4, Times)]
  | _ => False
  end.
Proof. vm_compute. reflexivity. Qed.
(** The hypotheses on the chain. *)
Example C106_case_chain :
  many (sequence (behaves (parse (operator 9))) (behaves (parse number))) (Slice 1 1 [5; 2; 3; 4; 7]) [(Power, 2); (Times, 4)] (Slice 1 5 [7]) /\
  (forall x q, ~ sequence (behaves (parse (operator 9))) (behaves (parse number)) (Slice 1 5 [7]) (Succ x q)) /\
  (forall o, In o [Power; Times] -> associativity o = Left -> precedence o < 9) /\
  never_more_than 1 [Power; Times].
Proof.
  repeat apply conj.
  - repeat (eapply many_cons; [eapply sq_ok; reflexivity|]). apply many_nil.
  - intros x q P. inversion P as [? ? mid ? ? E1 E2| | | | | |]; subst. cbn in E1. injection E1 as <- <-. discriminate.
  - intros o [<-|[<-|[]]]; cbn; lia.
  - intros [|a [|b [|c l]]] z E; cbn in E; try discriminate; try (injection E as <- E); try (injection E as <- E); subst; cbn; auto; discriminate.
Qed.

Print Assumptions C106_same_answer_partial.
Print Assumptions C106_heap_exact_partial.
Print Assumptions C106_inline.
Print Assumptions C106_four_levels.
Print Assumptions C106_zero_sized_exact.
Print Assumptions C106_zero_sized_refuted.
Print Assumptions C106_right_edge.
