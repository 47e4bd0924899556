(** * P_Why: property C103, what the answers of a grammar's parser say. *)
From Verif Require Import L_Why.

Section Theorems.
  Context {T : Type} (eqb : T -> T -> bool) (rules : nat -> gexp T).
  Hypothesis eqb_ok : decides_eq eqb.

  Notation run fuel e := (parse (telling eqb rules fuel e)).

  (** The errors and outputs of the combinators, taken together, say exactly
      what happened, and the input stands exactly where S_Why says. *)
  Theorem C103_exact e s o : (exists fuel, answers s (run fuel e s) o) <-> tells rules e (sl_data s) o.
  Proof.
    split.
    - intros (fuel & H). destruct (tells_run eqb rules eqb_ok fuel e s) as [E|(o' & H' & G)].
      + rewrite E in H. destruct o; destruct H as (? & H & _); discriminate.
      + replace o with o'; auto. destruct o, o'; destruct H as (s1 & E & _ & <-), H' as (s2 & E' & _ & <-); rewrite E in E';
          try discriminate; injection E' as <- <-; reflexivity.
    - intros P. destruct (tells_complete eqb rules eqb_ok e _ o P) as (n & H). exists n. now apply H.
  Qed.

  Theorem C103_budget_irrelevant e l o : tells rules e l o ->
    exists n, forall fuel s, n <= fuel -> sl_data s = l -> answers s (run fuel e s) o.
  Proof. exact (tells_complete eqb rules eqb_ok e l o). Qed.

  Theorem C103_deterministic e l o o' : tells rules e l o -> tells rules e l o' -> o = o'.
  Proof. intros P P'. exact (tells_det rules e l o P o' P'). Qed.

  (** Without its reasons the answer is the one of the grammar, and every
      answer of the grammar has its reasons. *)
  Theorem C103_same_answer e l :
    (forall o, tells rules e l o -> peg rules e l (without_reasons o)) /\
    (forall o, peg rules e l o -> exists o', without_reasons o' = o /\ tells rules e l o').
  Proof. split; [apply tells_peg|apply (peg_tells eqb rules eqb_ok)]. Qed.

  (** A failure blames item parsers that really did not match somewhere in the
      text, and the input it returns stands where the last of them was tried. *)
  Theorem C103_blame_is_just fuel e s f s' : run fuel e s = Ret (Err f s') ->
    (forall q, In q (blamed f) -> exists read ahead, sl_data s = read ++ ahead /\ stuck q ahead) /\
    (exists before q, blamed f = before ++ [q] /\ stuck q (sl_data s')).
  Proof.
    intros E. destruct (tells_run eqb rules eqb_ok fuel e s) as [F|(o & H & G)]; [congruence|].
    rewrite E in H. destruct o; destruct H as (s1 & H & _ & <-); [discriminate|]. injection H as <- <-.
    destruct (tells_blames rules _ _ _ G) as (A & B). split; [|exact B].
    intros q I. exact (proj1 (Forall_forall _ _) A q I).
  Qed.

  (** So does every reason in an output for an option not taken or a repetition
      that ended; and none of these is fatal. *)
  Theorem C103_reasons_are_just fuel e s t s' : run fuel e s = Ret (Ok t s') ->
    forall f, In f (reasons t) -> grave f = false /\ blamed f <> [] /\
      forall q, In q (blamed f) -> exists read ahead, sl_data s = read ++ ahead /\ stuck q ahead.
  Proof.
    intros E f I. destruct (tells_run eqb rules eqb_ok fuel e s) as [F|(o & H & G)]; [congruence|].
    rewrite E in H. destruct o; destruct H as (s1 & H & _ & <-); [|discriminate]. injection H as <- <-.
    destruct (tells_blames rules _ _ _ G f I) as (A & B & C). split; [auto|]. split; [auto|].
    intros q J. exact (proj1 (Forall_forall _ _) C q J).
  Qed.

  (** An error is fatal exactly if one was made fatal on the way to it. *)
  Theorem C103_fatal_if_made_fatal fuel e s f s' : run fuel e s = Ret (Err f s') ->
    (should_terminate f = true <-> has_cut f).
  Proof.
    intros E. destruct (tells_run eqb rules eqb_ok fuel e s) as [F|(o & H & G)]; [congruence|].
    rewrite E in H. destruct o; destruct H as (s1 & H & _ & <-); [discriminate|]. injection H as <- <-.
    exact (tells_cut rules _ _ _ G).
  Qed.
End Theorems.

(** A list in brackets, [1] and [2], of [7]s and [8 9]s, the closing bracket
    being compulsory. *)
Definition listing (_ : nat) : gexp nat :=
  GJoin (GThe 1) (GJoin (GRep (GOr (GThe 7) (GAtom [8; 9]))) (GCut (GThe 2))).

Example C103_case_ok :
  answers (Slice 3 0 [1; 8; 9; 7; 2; 5]) (parse (telling Nat.eqb listing 9 (GRef 0)) (Slice 3 0 [1; 8; 9; 7; 2; 5]))
    (WSucc (WPair WUnit (WPair (WMany [WInstead WUnit; WTook WUnit]
       (WBoth (WLeaf (QThe 7)) (WLeaf (QAtom [8; 9])))) WUnit)) [5]).
Proof. eexists. split; [vm_compute; reflexivity|]. split; [exists [1; 8; 9; 7; 2]; split|]; reflexivity. Qed.

(** The bracket is missing: the error is fatal and stands at the [8]. *)
Example C103_case_error :
  answers (Slice 3 0 [1; 7; 8; 2]) (parse (telling Nat.eqb listing 9 (GOr (GRef 0) GAny)) (Slice 3 0 [1; 7; 8; 2]))
    (WFail (WOnlyFirst (WSecond (WSecond (WCut (WLeaf (QThe 2)))))) [8; 2]).
Proof. eexists. split; [vm_compute; reflexivity|]. split; [exists [1; 7]; split|]; reflexivity. Qed.

(** Where an earlier alternative stopped is not said, even if it got further. *)
Example C103_case_place :
  answers (Slice 3 0 [1; 2; 9]) (parse (telling Nat.eqb listing 9 (GOr (GJoin (GThe 1) (GJoin (GThe 2) (GThe 3))) (GJoin (GThe 1) (GThe 4)))) (Slice 3 0 [1; 2; 9]))
    (WFail (WBoth (WSecond (WSecond (WLeaf (QThe 3)))) (WSecond (WLeaf (QThe 4)))) [2; 9]).
Proof. eexists. split; [vm_compute; reflexivity|]. split; [exists [1]; split|]; reflexivity. Qed.

Print Assumptions C103_exact.
Print Assumptions C103_budget_irrelevant.
Print Assumptions C103_deterministic.
Print Assumptions C103_same_answer.
Print Assumptions C103_blame_is_just.
Print Assumptions C103_reasons_are_just.
Print Assumptions C103_fatal_if_made_fatal.
