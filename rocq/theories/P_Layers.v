(** * P_Layers: property C104, precedence climbing and the layered grammar. *)
From Verif Require Import L_Layers P_BinExpr.

Section Theorems.
  Context {S A : Type} {RS : RewindSequence S A} {reach : S -> S -> Prop} (LR : lawful_rewind reach).
  Context {T TE Op OE Expr : Type} {PT : ParseError TE} {PO : ParseError OE} {OP : Operator Op}.
  Context (from_term : T -> Expr) (from_bin : Expr -> Op -> Expr -> Expr).
  Context (usize_max : nat) (overflow_checks : bool).
  Context (term : dparser S T TE) (op : dparser S Op OE) (side : nat -> Associativity) (levels : nat).
  Context (Hft : forward reach (parse term)) (Hfo : forward reach (parse op)).
  (** There is a layer for each precedence, and the operators of one
      precedence group to the same side. *)
  Context (Hlev : forall s o r, parse op s = Ret (Ok o r) -> precedence o < levels /\ associativity o = side (precedence o)).
  Context (Hsome : 0 < levels) (Hmax : levels <= usize_max).
  Notation layers fuel := (layer from_term from_bin fuel term op side levels 0).
  Notation bin fuel := (BinExpr from_term from_bin usize_max overflow_checks fuel term op).

  Lemma in_bounds : below_max usize_max op.
  Proof. intros s o r H _. apply Hlev in H. lia. Qed.

  (** Whenever both come to an end they answer the same: the same expression
      and rest, the same errors, the same panics. *)
  Theorem C104_same_answer fuel fuel' s v w :
    behaves (parse (bin fuel)) s v -> v <> Crash CFuel ->
    behaves (parse (layers fuel')) s w -> w <> Crash CFuel -> w = as_layers v.
  Proof.
    intros B N0 L N1. destruct (layers_are_oe LR from_term from_bin term op side levels Hft Hfo Hlev fuel' s w Hsome L N1) as (v' & -> & V').
    pose proof (bin_sound LR from_term from_bin usize_max overflow_checks term op Hft Hfo in_bounds fuel s v B N0) as V.
    destruct (C09_budget_irrelevant LR from_term from_bin usize_max overflow_checks term op Hft Hfo in_bounds s v V) as (n & H).
    destruct (C09_budget_irrelevant LR from_term from_bin usize_max overflow_checks term op Hft Hfo in_bounds s v' V') as (n' & H').
    f_equal. eapply behaves_functional; [apply (H' (Datatypes.S (n + n'))); lia|apply H; lia].
  Qed.

  (** Where the layers come to an end so does precedence climbing. *)
  Theorem C104_found fuel s w : behaves (parse (layers fuel)) s w -> w <> Crash CFuel ->
    exists v n, w = as_layers v /\ forall fuel', n < fuel' -> behaves (parse (bin fuel')) s v.
  Proof.
    intros L N1. destruct (layers_are_oe LR from_term from_bin term op side levels Hft Hfo Hlev fuel s w Hsome L N1) as (v & -> & V).
    destruct (C09_budget_irrelevant LR from_term from_bin usize_max overflow_checks term op Hft Hfo in_bounds s v V) as (n & H).
    eauto.
  Qed.

  (** If every operator and term read something, both do. *)
  Theorem C104_both_end (size : S -> nat) fuel s :
    (forall s o m t r, parse op s = Ret (Ok o m) -> parse term m = Ret (Ok t r) -> size r < size s) ->
    (forall s, parse op s <> OutOfFuel) -> (forall s, parse term s <> OutOfFuel) ->
    (forall s t r, parse term s = Ret (Ok t r) -> size r < fuel) ->
    exists v, v <> Crash CFuel /\ behaves (parse (bin fuel)) s v /\ behaves (parse (layers fuel)) s (as_layers v).
  Proof.
    intros Hp Hno Hnt Hf.
    destruct (behaves_total (parse (layers fuel)) s) as (w & L).
    destruct (behaves_total (parse (bin fuel)) s) as (v & B).
    assert (w <> Crash CFuel).
    { intros ->. exact (layer_ends LR from_term from_bin term op side levels Hft Hfo Hlev size fuel Hp Hno Hnt Hf levels 0 (le_n _) s L). }
    assert (v <> Crash CFuel).
    { intros ->. cbn in B. revert B. destruct (parse term s) as [[t m|e m]| | |] eqn:E.
      - apply (C09_terminates LR from_term from_bin usize_max overflow_checks term op size Hft Hfo in_bounds Hp Hno Hnt s t m fuel E (Hf _ _ _ E)).
      - unfold bin_expr_parse, parse_impl. rewrite E. discriminate.
      - unfold bin_expr_parse, parse_impl. rewrite E. discriminate.
      - unfold bin_expr_parse, parse_impl. rewrite E. discriminate.
      - now destruct (Hnt s). }
    exists v. split; [auto|]. split; [auto|]. now rewrite <- (C104_same_answer fuel fuel s v w B H0 L H).
  Qed.
End Theorems.

(** The calculator of P_BinExpr, in four layers. *)
Definition sides (k : nat) : Associativity := match k with 3 => Right | _ => Left end.
Example C104_case_hypotheses :
  (forall s o r, parse safe_operator s = Ret (Ok o r) -> precedence o < 4 /\ associativity o = sides (precedence o)) /\
  (forall s o m t r, parse safe_operator s = Ret (Ok o m) -> parse number m = Ret (Ok t r) -> length (sl_data r) < length (sl_data s)) /\
  (forall s, parse safe_operator s <> OutOfFuel) /\ (forall s, parse number s <> OutOfFuel).
Proof.
  assert (R : forall O (f : nat -> option O) s o r, parse (on_item f) s = Ret (Ok o r) ->
    exists x, f x = Some o /\ sl_data s = x :: sl_data r).
  { intros O f [al off d] o r H. cbn in H. unfold slice_advance in H. destruct d as [|x d]; cbn in H; [discriminate|].
    exists x. destruct (f x); [|discriminate]. injection H as <- <-. auto. }
  assert (Q : forall O (f : nat -> option O) s, parse (on_item f) s <> OutOfFuel).
  { intros O f [al off [|x d]]; cbn; unfold slice_advance; cbn; [discriminate|]. destruct (f x); discriminate. }
  split; [|split; [|split; [apply Q|apply Q]]].
  - intros s o r H. apply R in H as (x & H & _).
    destruct x as [|[|[|[|[|[|[|[|x]]]]]]]]; cbn in H; try discriminate; injection H as <-; cbn; auto with arith.
  - intros s o m t r H H'. apply R in H as (x & _ & ->). apply R in H' as (y & _ & ->). cbn. auto with arith.
Qed.
Example C104_case :
  parse (layer Leaf Node 9 number safe_operator sides 4 0) (nums [2; 1; 4; 3; 6; 5; 8; 5; 0; 1; 2; 3; 9])
  = Ret (Ok (Node (Node (Leaf 2) Plus (Node (Leaf 4) Times (Node (Leaf 6) Power (Node (Leaf 8) Power (Leaf 0)))))
               Plus (Leaf 2) : btree) (Slice 1 11 [3; 9])).
Proof. vm_compute. reflexivity. Qed.

(** If operators of one precedence group to different sides the two differ:
    BinExprParser lets the operator on the left decide. *)
Inductive mixed := ToLeft | ToRight.
#[export] Instance mixed_operator : Operator mixed := {
  precedence _ := 0;
  associativity o := match o with ToLeft => Left | ToRight => Right end
}.
Definition mixed_op : dparser (slice nat) mixed (Miss unit) :=
  on_item (fun x => match x with 1 => Some ToLeft | 3 => Some ToRight | _ => None end).
Theorem C104_needs_one_side : forall a : Associativity, exists s,
  exists v w, behaves (parse (BinExpr Leaf Node 9 true 9 number mixed_op)) s v /\ v <> Crash CFuel /\
    behaves (parse (layer Leaf Node 9 number mixed_op (fun _ => a) 1 0)) s w /\ w <> Crash CFuel /\
    w <> as_layers (Expr := tree nat mixed) v.
Proof.
  intros []; [exists (nums [2; 3; 4; 3; 6])|exists (nums [2; 1; 4; 1; 6])]; do 2 eexists (Succ _ _);
    (split; [vm_compute; reflexivity|]; split; [discriminate|]; split; [vm_compute; reflexivity|]; split; discriminate).
Qed.

Print Assumptions C104_same_answer.
Print Assumptions C104_found.
Print Assumptions C104_both_end.
Print Assumptions C104_needs_one_side.
