(** * P_BinExpr: operator expressions, properties C09-C13 (and the
    BinExprParser parts of C06, C21, C22). *)
From Verif Require Import L_BinExpr.

Section Properties.
  Context {S A : Type} {RS : RewindSequence S A} {reach : S -> S -> Prop} (LR : lawful_rewind reach).
  Context {T TE Op OE Expr : Type} {PT : ParseError TE} {PO : ParseError OE} {OP : Operator Op}.
  Context (from_term : T -> Expr) (from_bin : Expr -> Op -> Expr -> Expr).
  Context (usize_max : nat) (overflow_checks : bool).
  Notation bin fuel term op := (BinExpr from_term from_bin usize_max overflow_checks fuel term op).

  (** The operators [op] can produce: left-associative ones stay below
      [usize::MAX]. *)
  Definition below_max (op : dparser S Op OE) : Prop :=
    forall s o r, parse op s = Ret (Ok o r) -> associativity o = Left -> precedence o < usize_max.

  (** C09: the parser is exactly "a term, then as many (operator term) pairs as
      possible, grouped by precedence". *)
  Theorem C09_bin_expr (term : dparser S T TE) (op : dparser S Op OE) :
    forward reach (parse term) -> forward reach (parse op) -> below_max op ->
    forall s v, v <> Crash CFuel ->
    (exists fuel, behaves (parse (bin fuel term op)) s v) <->
    operator_expression from_term from_bin (behaves (parse term)) (behaves (parse op)) s v.
  Proof. exact (bin_exact LR from_term from_bin usize_max overflow_checks term op). Qed.

  (** The budget does not matter once it is large enough. *)
  Theorem C09_budget_irrelevant (term : dparser S T TE) (op : dparser S Op OE) :
    forward reach (parse term) -> forward reach (parse op) -> below_max op ->
    forall s v,
    operator_expression from_term from_bin (behaves (parse term)) (behaves (parse op)) s v ->
    exists n, forall fuel, n < fuel -> behaves (parse (bin fuel term op)) s v.
  Proof. exact (bin_complete LR from_term from_bin usize_max overflow_checks term op). Qed.

  (** If every (operator term) pair makes progress the parse ends. *)
  Theorem C09_terminates (term : dparser S T TE) (op : dparser S Op OE) (size : S -> nat) :
    forward reach (parse term) -> forward reach (parse op) -> below_max op ->
    (forall s o m t r, parse op s = Ret (Ok o m) -> parse term m = Ret (Ok t r) -> size r < size s) ->
    (forall s, parse op s <> OutOfFuel) -> (forall s, parse term s <> OutOfFuel) ->
    forall s t m fuel, parse term s = Ret (Ok t m) -> size m < fuel ->
    parse (bin fuel term op) s <> OutOfFuel.
  Proof.
    intros F1 F2 B. exact (bin_terminates LR from_term from_bin usize_max overflow_checks term op F1 F2 B size).
  Qed.

  (** C10: every chain has exactly one tree that respects the precedences
      (C09 says the parser builds one). *)
  Theorem C10_unique_tree (t : T) (ps : list (Op * T)) :
    exists tr : tree T Op, (reading tr = (t, ps) /\ respects tr) /\
      forall tr', reading tr' = (t, ps) -> respects tr' -> tr' = tr.
  Proof.
    destruct (tree_exists t ps) as [tr [H1 H2]]. exists tr. split; [auto|].
    intros tr' H3 H4. apply respects_unique; congruence.
  Qed.

  Theorem C10_builds_the_tree (term : dparser S T TE) (op : dparser S Op OE) :
    forward reach (parse term) -> forward reach (parse op) -> below_max op ->
    forall fuel s x e r, parse (bin fuel term op) s = Ret (Ok (x, e) r) ->
    exists t m ps, parse term s = Ret (Ok t m) /\
      many (sequence (behaves (parse op)) (behaves (parse term))) m ps r /\
      sequence (behaves (parse op)) (behaves (parse term)) r (Missed e) /\
      forall tr, reading tr = (t, ps) -> respects tr -> x = build from_term from_bin tr.
  Proof.
    intros F1 F2 B fuel s x e r Hp.
    pose proof (bin_sound LR from_term from_bin usize_max overflow_checks term op F1 F2 B fuel s (Succ (x, e) r) Hp ltac:(discriminate)) as Ho.
    inversion Ho; subst. match goal with H : repetition _ _ _ |- _ => inversion H; subst end.
    exists t, m, ps. repeat split; auto. intros tr' K3 K4. f_equal. apply respects_unique; congruence.
  Qed.

  (** C11: panics and undefined behaviour only come from the sub-parsers, and
      the [unreachable!()] is never reached. *)
  Theorem C11_no_panic (term : dparser S T TE) (op : dparser S Op OE) :
    forward reach (parse term) -> forward reach (parse op) -> below_max op ->
    forall fuel s k, k <> CFuel -> behaves (parse (bin fuel term op)) s (Crash k) ->
    exists s', behaves (parse term) s' (Crash k) \/ behaves (parse op) s' (Crash k).
  Proof. exact (bin_no_crash_of_its_own LR from_term from_bin usize_max overflow_checks term op). Qed.

  (** C13, BinExprParser. *)
  Theorem C13_bin_expr_fatal_not_swallowed (term : dparser S T TE) (op : dparser S Op OE) :
    forward reach (parse term) -> forward reach (parse op) -> below_max op ->
    (forall fuel s e, behaves (parse term) s (Cut e) -> behaves (parse (bin fuel term op)) s (Cut (Last e))) /\
    (forall fuel s t m ps r, parse term s = Ret (Ok t m) ->
       many (sequence (behaves (parse op)) (behaves (parse term))) m ps r -> length ps < fuel ->
       (forall e, behaves (parse op) r (Cut e) -> behaves (parse (bin fuel term op)) s (Cut (First e))) /\
       (forall o q e, behaves (parse op) r (Succ o q) -> behaves (parse term) q (Cut e) ->
          behaves (parse (bin fuel term op)) s (Cut (Last e)))).
  Proof.
    intros F1 F2 B. split.
    - intros fuel s e [T1 [l Hl]]. split; [exact T1|]. exists l. cbn. unfold bin_expr_parse, parse_impl. now rewrite Hl.
    - intros fuel s t m ps r H1 H2 H3.
      pose proof (fun e => pairs_swallow_nothing LR from_term from_bin usize_max overflow_checks term op F1 F2 B
                    s t m ps r e fuel H1 H2 H3) as H.
      split; intros; apply H; econstructor; eauto.
  Qed.

  (** C06, C21, C22, BinExprParser. *)
  Theorem C06_bin_expr (term : dparser S T TE) (op : dparser S Op OE) fuel : coherent (bin fuel term op).
  Proof. exact (bin_coherent from_term from_bin usize_max overflow_checks fuel term op). Qed.

  Theorem C21_bin_expr (term term' : dparser S T TE) (op op' : dparser S Op OE) fuel :
    forward reach (parse term) -> forward reach (parse op) ->
    forward reach (parse term') -> forward reach (parse op') ->
    same_behaviour (behaves (parse term)) (behaves (parse term')) ->
    same_behaviour (behaves (parse op)) (behaves (parse op')) ->
    same_behaviour (behaves (parse (bin fuel term op))) (behaves (parse (bin fuel term' op'))).
  Proof. exact (bin_cong LR from_term from_bin usize_max overflow_checks fuel term term' op op'). Qed.

  Theorem C22_bin_expr (term : dparser S T TE) (op : dparser S Op OE) fuel :
    forward reach (parse term) -> forward reach (parse op) -> forward reach (parse (bin fuel term op)).
  Proof. exact (bin_forward LR from_term from_bin usize_max overflow_checks fuel term op). Qed.
End Properties.

(** ** A calculator over numbers: even items are terms, odd items operators,
    [1] = plus (1, left), [3] = times (2, left), [5] = power (3, right),
    [7]: precedence [usize_max], left-associative. *)
Inductive operation := Plus | Times | Power | Top (usize_max : nat).
#[export] Instance operation_operator : Operator operation := {
  precedence o := match o with Plus => 1 | Times => 2 | Power => 3 | Top m => m end;
  associativity o := match o with Power => Right | _ => Left end
}.
Definition on_item {O} (f : nat -> option O) : dparser (slice nat) O (Miss unit) :=
  closure (fun s => match sl_data s with
                    | [] => Ret (Err (MkMiss tt) s)
                    | x :: _ =>
                        s' <- slice_advance s 1 ;;
                        match f x with Some o => Ret (Ok o s') | None => Ret (Err (MkMiss tt) s') end
                    end).
Definition number : dparser (slice nat) nat (Miss unit) := on_item (fun x => if Nat.even x then Some x else None).
Definition operation_of (usize_max x : nat) : option operation :=
  match x with 1 => Some Plus | 3 => Some Times | 5 => Some Power | 7 => Some (Top usize_max) | _ => None end.
Definition operator usize_max : dparser (slice nat) operation (Miss unit) := on_item (operation_of usize_max).
Definition safe_operator : dparser (slice nat) operation (Miss unit) :=
  on_item (fun x => match x with 7 => None | _ => operation_of 0 x end).
Definition nums (l : list nat) : slice nat := Slice 1 0 l.
Notation btree := (tree nat operation).

Lemma on_item_forward {O} (f : nat -> option O) : forward (@later_slice nat) (parse (on_item f)).
Proof.
  intros s r. cbn. destruct (sl_data s) as [|x l] eqn:E; cbn.
  - injection 1 as <-. apply later_slice_refl.
  - destruct (slice_advance s 1) as [s'| | |] eqn:Ha; cbn; try discriminate.
    destruct (f x); injection 1 as <-; eapply slice_advance_later; eauto.
Qed.

(** The hypotheses of C09-C13 hold for the calculator. *)
Example C09_case :
  forward (@later_slice nat) (parse number) /\ forward (@later_slice nat) (parse safe_operator) /\
  below_max 3 safe_operator /\
  parse (BinExpr Leaf Node 3 true 9 number safe_operator) (nums [2; 1; 4; 3; 6; 5; 8; 5; 0; 1; 2; 3; 9])
  = Ret (Ok (Node (Node (Leaf 2) Plus (Node (Leaf 4) Times (Node (Leaf 6) Power (Node (Leaf 8) Power (Leaf 0)))))
               Plus (Leaf 2) : btree, Last (MkMiss tt)) (Slice 1 11 [3; 9])).
Proof.
  split; [apply on_item_forward|]. split; [apply on_item_forward|]. split; [|reflexivity].
  intros s o r. cbn. unfold slice_advance. destruct (sl_data s) as [|x l]; cbn; [discriminate|].
  destruct x as [|[|[|[|[|[|[|[|x]]]]]]]]; cbn; try discriminate;
    injection 1 as <- <-; cbn; intros; try lia; discriminate.
Qed.
Example C13_case :
  parse (BinExpr Leaf Node 9 true 9 (MapErr number (fun _ => MkFatal tt)) (operator 9)) (nums [2; 1; 4; 3; 5])
  = Ret (Err (Last (MkFatal tt)) (Slice 1 5 []) : res _ (btree * _) _).
Proof. reflexivity. Qed.

(** C12 is false: whatever [usize::MAX] is, with two uses of a left-associative
    operator of that precedence the parser panics when overflow checks are on,
    and groups to the right when they are off. *)
Theorem C12_usize_max_refuted usize_max :
  exists (term : dparser (slice nat) nat (Miss unit)) (op : dparser (slice nat) operation (Miss unit)) s t1 t2 t3 o r,
    forward (@later_slice nat) (parse term) /\ forward (@later_slice nat) (parse op) /\
    associativity o = Left /\ precedence o = usize_max /\
    repetition (sequence (behaves (parse op)) (behaves (parse term))) s
      (Succ ([(o, t2); (o, t3)], First (MkMiss tt)) r) /\
    (exists s0, parse term s0 = Ret (Ok t1 s) /\
       (forall fuel, 2 < fuel ->
          parse (BinExpr Leaf Node usize_max true fuel term op) s0 = (Panic : comp (res _ (btree * _) _)) /\
          parse (BinExpr Leaf Node usize_max false fuel term op) s0
            = Ret (Ok (Node (Leaf t1) o (Node (Leaf t2) o (Leaf t3)) : btree, First (MkMiss tt)) r))) /\
    ~ respects (Node (Leaf t1) o (Node (Leaf t2) o (Leaf t3)) : btree).
Proof.
  exists number, (operator usize_max), (Slice 1 1 [7; 4; 7; 6]), 2, 4, 6, (Top usize_max), (Slice 1 5 []).
  split; [apply on_item_forward|]. split; [apply on_item_forward|]. split; [reflexivity|]. split; [reflexivity|].
  split; [|split].
  - econstructor.
    + econstructor; [econstructor; cbn; reflexivity|]. econstructor; [econstructor; cbn; reflexivity|]. constructor.
    + constructor. split; [reflexivity|]. eexists. reflexivity.
  - exists (nums [2; 7; 4; 7; 6]). split; [reflexivity|]. intros fuel Hf.
    destruct fuel as [|[|[|fuel]]]; try lia. cbn. unfold bin_expr_parse, parse_impl. cbn.
    unfold next_precedence. cbn. 
    replace (match usize_max with 0 => false | Datatypes.S m' => usize_max <=? m' end) with false
      by (destruct usize_max as [|m]; [|symmetry; apply Nat.leb_gt]; lia).
    split; reflexivity.
  - cbn. intros [_ [_ [_ H]]]. specialize (H _ eq_refl). unfold right_ok in H. cbn in H.
    destruct H as [H|[_ H]]; [lia|discriminate].
Qed.

(** What does hold: right-associative operators may use the full range, and
    left-associative ones everything below it ([below_max]). *)
Theorem C12_usize_max_partial {S A T TE Op OE Expr} {RS : RewindSequence S A} {reach : S -> S -> Prop}
  {PT : ParseError TE} {PO : ParseError OE} {OP : Operator Op} (LR : lawful_rewind reach)
  (from_term : T -> Expr) (from_bin : Expr -> Op -> Expr -> Expr) usize_max overflow_checks
  (term : dparser S T TE) (op : dparser S Op OE) :
  forward reach (parse term) -> forward reach (parse op) ->
  (forall s o r, parse op s = Ret (Ok o r) -> precedence o <= usize_max /\ (precedence o = usize_max -> associativity o = Right)) ->
  forall s v, v <> Crash CFuel ->
  (exists fuel, behaves (parse (BinExpr from_term from_bin usize_max overflow_checks fuel term op)) s v) <->
  operator_expression from_term from_bin (behaves (parse term)) (behaves (parse op)) s v.
Proof.
  intros F1 F2 Hr. apply (C09_bin_expr LR); auto.
  intros s o r Ho Ha. destruct (Hr s o r Ho) as [H1 H2].
  destruct (Nat.eq_dec (precedence o) usize_max) as [E|E]; [rewrite (H2 E) in Ha; discriminate|lia].
Qed.

Print Assumptions C09_bin_expr.
Print Assumptions C09_budget_irrelevant.
Print Assumptions C09_terminates.
Print Assumptions C10_unique_tree.
Print Assumptions C10_builds_the_tree.
Print Assumptions C11_no_panic.
Print Assumptions C13_bin_expr_fatal_not_swallowed.
Print Assumptions C06_bin_expr.
Print Assumptions C21_bin_expr.
Print Assumptions C22_bin_expr.
Print Assumptions C12_usize_max_refuted.
Print Assumptions C12_usize_max_partial.
