(** * P_Peg: property C61. *)
From Verif Require Import S_Peg L_Peg.

Section Theorems.
  Context {T : Type} (eqb : T -> T -> bool) (rules : nat -> gexp T).
  Hypothesis eqb_ok : decides_eq eqb.

  Notation run fuel e := (parse (parser_of eqb rules fuel e)).

  (** The parser for [e] has an outcome exactly if the grammar gives it. *)
  Theorem C61_exact e s o : (exists fuel, has_outcome s (run fuel e s) o) <-> peg rules e (sl_data s) o.
  Proof.
    split.
    - intros (fuel & H). destruct (sound eqb rules eqb_ok fuel e s) as [E|(o' & H' & G)].
      + rewrite E in H. destruct o; destruct H as (? & H & _); discriminate.
      + replace o with o'; auto. destruct o, o'; destruct H as (s1 & E & P), H' as (s2 & E' & P'); rewrite E in E';
          try discriminate; auto. injection E' as <- <-. destruct P as (_ & <-), P' as (_ & <-). reflexivity.
    - intros P. destruct (complete eqb rules eqb_ok e _ o P) as (n & H). exists n. now apply (H n).
  Qed.

  (** The budget does not matter once it is large enough. *)
  Theorem C61_budget_irrelevant e l o : peg rules e l o ->
    exists n, forall fuel s, n <= fuel -> sl_data s = l -> has_outcome s (run fuel e s) o.
  Proof.
    intros P. destruct (complete eqb rules eqb_ok e l o P) as (n & H). exists n. intros fuel s F D. now apply (H fuel F s D).
  Qed.

  (** No parser of this kind panics or has undefined behaviour. *)
  Theorem C61_no_crash fuel e s : run fuel e s = OutOfFuel \/ exists o, has_outcome s (run fuel e s) o.
  Proof. destruct (sound eqb rules eqb_ok fuel e s) as [E|(o & H & _)]; eauto. Qed.

  Theorem C61_deterministic e l o o' : peg rules e l o -> peg rules e l o' -> o = o'.
  Proof. intros P P'. exact (peg_det rules e l o P o' P'). Qed.

  (** Consuming the parser gives the same. *)
  Theorem C61_once fuel e s : parse_once (parser_of eqb rules fuel e) s = run fuel e s.
  Proof. apply once. Qed.
End Theorems.

(** Nested brackets: rule 0 = ('1' cut(rule 0 '2'))?, with [1] and [2] for the
    brackets. *)
Definition brackets (i : nat) : gexp nat := GRep (GJoin (GThe 1) (GCut (GJoin (GRef 0) (GThe 2)))).

Example C61_case_ok :
  has_outcome (Slice 7 0 [1; 1; 2; 2; 1; 2; 5]) (parse (parser_of Nat.eqb brackets 9 (GRef 0)) (Slice 7 0 [1; 1; 2; 2; 1; 2; 5]))
    (PSucc (TMany [TPair TUnit (TPair (TMany [TPair TUnit (TPair (TMany []) TUnit)]) TUnit);
                   TPair TUnit (TPair (TMany []) TUnit)]) [5]).
Proof.
  eexists. split; [vm_compute; reflexivity|]. split; [|reflexivity]. exists [1; 1; 2; 2; 1; 2]. split; reflexivity.
Qed.
Example C61_case_cut :
  has_outcome (Slice 7 0 [1; 1; 2; 5]) (parse (parser_of Nat.eqb brackets 9 (GRef 0)) (Slice 7 0 [1; 1; 2; 5])) PCut.
Proof. eexists. split; [vm_compute; reflexivity|]. exists [1; 1; 2]. split; reflexivity. Qed.
(** Repeating something that can be empty has no outcome. *)
Example C61_case_loop (l : list nat) o : ~ peg brackets (GRep (GOpt GAny)) l o.
Proof.
  assert (A : forall l, exists t r, peg brackets (GOpt GAny) l (PSucc t r)).
  { intros [|x l']; [exists TNone, []; repeat constructor|exists (TSome (TItem x)), l'; repeat constructor]. }
  intros P. remember (GRep (GOpt GAny)) as e eqn:E. revert E.
  induction P; intros E; try discriminate; injection E as ->.
  - destruct (A l) as (t & r & Q). pose proof (C61_deterministic _ _ _ _ _ P Q). discriminate.
  - auto.
  - destruct (A l) as (t & r & Q). pose proof (C61_deterministic _ _ _ _ _ P Q). discriminate.
  - auto.
Qed.

Print Assumptions C61_exact.
Print Assumptions C61_budget_irrelevant.
Print Assumptions C61_no_crash.
Print Assumptions C61_deterministic.
Print Assumptions C61_once.
