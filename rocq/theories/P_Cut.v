(** * P_Cut: C105, however the input is cut. *)
From Verif Require Import L_Cut P_Why.

(** Two sequences with the same items ahead, each read item by item: every
    expression of combinators over the single-item parsers answers the same on
    both and leaves the same items. *)
Theorem C105_every_combinator {S1 A1 S2 A2 T} {R1 : RewindSequence S1 A1} {R2 : RewindSequence S2 A2}
    (eqb : T -> T -> bool) (P1 : prims S1 T) (P2 : prims S2 T) (cont1 : S1 -> list T) (cont2 : S2 -> list T)
    (later1 : S1 -> S1 -> Prop) (later2 : S2 -> S2 -> Prop) :
  decides_eq eqb -> reads_items P1 cont1 later1 -> reads_items P2 cont2 later2 ->
  forall O E (x : pexp (single_leaf T) O E),
  agreeing (fun s1 s2 => cont1 s1 = cont2 s2)
    (fun s1 s2 r1 r2 => later1 s1 r1 /\ later2 s2 r2 /\ cont1 r1 = cont2 r2)
    (S_Any.build _ (singles_of P1) x) (S_Any.build _ (singles_of P2) x).
Proof.
  intros HE I1 I2. apply C98_every_combinator.
  - exact (c_corresponds P1 P2 cont1 cont2 later1 later2 I1 I2).
  - apply (c_leaves P1 P2 cont1 cont2 later1 later2 I1 I2).
    intros x y. destruct (eqb x y) eqn:E; [left; now apply HE|right; intros F; apply HE in F; congruence].
Qed.

(** Text is read character by character, wherever its pieces end. *)
Theorem C105_text {S A} {RW : RewindSequence S A} {SQ : Sequence S str} (reach : S -> S -> Prop) :
  lawful_positions reach -> reads_items text_prims text reach.
Proof. exact (text_reads reach). Qed.

(** Sequences of items are read item by item, wherever their segments end. *)
Theorem C105_items {S A T} {RW : RewindSequence S A} {SQ : Sequence S (list T)} (eqb : T -> T -> bool) (later : S -> S -> Prop) :
  decides_eq eqb -> lawful_rewind later -> lawful_items (S := S) (T := T) ->
  (forall s s' n, n <= length (content s) -> advance s n = Ret s' -> later s s') ->
  reads_items (item_prims eqb) content later.
Proof. exact (items_read eqb later). Qed.

Lemma char_eqb_ok : decides_eq (N.eqb : char -> char -> bool).
Proof. intros x y. apply N.eqb_eq. Qed.

(** Two texts with the same characters. *)
Theorem C105_text_cut {S1 A1 S2 A2} {R1 : RewindSequence S1 A1} {R2 : RewindSequence S2 A2}
    {Q1 : Sequence S1 str} {Q2 : Sequence S2 str} (reach1 : S1 -> S1 -> Prop) (reach2 : S2 -> S2 -> Prop) :
  lawful_positions reach1 -> lawful_positions reach2 ->
  forall O E (x : pexp (single_leaf char) O E),
  agreeing (fun s1 s2 => text s1 = text s2)
    (fun s1 s2 r1 r2 => reach1 s1 r1 /\ reach2 s2 r2 /\ text r1 = text r2)
    (S_Any.build _ (singles_of text_prims) x) (S_Any.build _ (singles_of text_prims) x).
Proof. intros L1 L2. apply (C105_every_combinator _ _ _ _ _ _ _ char_eqb_ok); now apply text_reads. Qed.

(** A text and the slice of its characters: bytes do not show. *)
Theorem C105_text_as_items {S A} {RW : RewindSequence S A} {SQ : Sequence S str} (reach : S -> S -> Prop) :
  lawful_positions reach ->
  forall O E (x : pexp (single_leaf char) O E),
  agreeing (fun (s1 : S) (s2 : slice char) => text s1 = sl_data s2)
    (fun s1 s2 r1 r2 => reach s1 r1 /\ later_slice s2 r2 /\ text r1 = sl_data r2)
    (S_Any.build _ (singles_of text_prims) x) (S_Any.build _ (singles_of (item_prims N.eqb)) x).
Proof.
  intros L1. apply (C105_every_combinator _ _ _ _ _ _ _ char_eqb_ok); [now apply text_reads|apply slice_reads; exact char_eqb_ok].
Qed.

Section Grammar.
  Context {S A T : Type} {RW : RewindSequence S A} (eqb : T -> T -> bool) (P : prims S T) (cont : S -> list T) (later : S -> S -> Prop).
  Context (eqb_ok : decides_eq eqb) (RI : reads_items P cont later).
  Context (rules : nat -> gexp T) (QR : forall i, patterns (fun _ => False) (rules i)).

  (** The parser of a grammar without patterns finds what the grammar says of
      the items ahead, and does not panic. *)
  Theorem C105_grammar e s o : patterns (fun _ => False) e ->
    (forall fuel, parse (parser_on P rules fuel e) s <> Panic /\ parse (parser_on P rules fuel e) s <> UB) /\
    ((exists fuel, outcome_on later cont s (parse (parser_on P rules fuel e) s) o) <-> peg rules e (cont s) o).
  Proof.
    intros QE. destruct RI as [W A1 A2 B1 B2 _ _].
    assert (H1 : forall s0 x l, cont s0 = x :: l -> takes cont later (parse (p_any P) s0) x s0 l).
    { intros s0 x l C. destruct (A1 s0 x l C) as (s' & ? & ? & ?). exists s'. auto. }
    assert (H3 : forall s0 x l, cont s0 = x :: l -> takes cont later (parse (p_the P x) s0) tt s0 l).
    { intros s0 x l C. destruct (B1 s0 x l C) as (s' & ? & ? & ?). exists s'. auto. }
    split.
    - intros fuel. destruct (f_outcome P eqb rules cont later false (fun _ => False) (cont s) eqb_ok W H1 A2 H3 B2)
        with (fuel := fuel) (e := e) (s := s) as [(_ & E)|[E|(o' & O & _)]]; auto; try contradiction; try discriminate.
      + rewrite E. split; discriminate.
      + destruct o'; destruct O as (? & -> & _); split; discriminate.
    - apply (f_exact P eqb rules cont later false (fun _ => False) (cont s)); auto; contradiction.
  Qed.

  (** The same with the reasons. *)
  Lemma tell_agrees fuel e s : patterns (fun _ => False) e ->
    agree (fun (s1 : S) (s2 : slice T) r1 r2 => later s1 r1 /\ later_slice s2 r2 /\ cont r1 = sl_data r2) s (Slice 0 0 (cont s))
      (parse (telling_on rules P fuel e) s) (parse (telling eqb rules fuel e) (Slice 0 0 (cont s))).
  Proof.
    intros QE. rewrite <- (telling_slices eqb rules QR fuel e QE).
    apply (C105_every_combinator eqb P (item_prims eqb) cont (fun s => sl_data s) later later_slice eqb_ok RI (slice_reads eqb eqb_ok)).
    reflexivity.
  Qed.

  Lemma answers_agree (s : S) (l : slice T) c1 c2 o :
    agree (fun (s1 : S) (s2 : slice T) r1 r2 => later s1 r1 /\ later_slice s2 r2 /\ cont r1 = sl_data r2) s l c1 c2 ->
    (answers_on later cont s c1 o <-> S_Why.answers l c2 o).
  Proof.
    intros H. destruct c1 as [[x r1|x r1]| | |], c2 as [[y r2|y r2]| | |]; cbn in H; try contradiction;
      destruct o as [t q|f q]; cbn; split; intros (s' & F & _ & D); try discriminate;
      injection F as <- <-; destruct H as (-> & L1 & L2 & C); eexists; (split; [reflexivity|]); (split; [assumption|]); congruence.
  Qed.

  Theorem C105_reasons e s o : patterns (fun _ => False) e ->
    ((exists fuel, answers_on later cont s (parse (telling_on rules P fuel e) s) o) <-> tells rules e (cont s) o).
  Proof.
    intros QE. rewrite <- (C103_exact eqb rules eqb_ok e (Slice 0 0 (cont s)) o).
    split; intros (fuel & H); exists fuel; now apply (answers_agree s (Slice 0 0 (cont s)) _ _ o (tell_agrees fuel e s QE)).
  Qed.

  Theorem C105_budget_irrelevant e l o : patterns (fun _ => False) e -> tells rules e l o ->
    exists n, forall fuel s, n <= fuel -> cont s = l -> answers_on later cont s (parse (telling_on rules P fuel e) s) o.
  Proof.
    intros QE G. destruct (C103_budget_irrelevant eqb rules eqb_ok e l o G) as (n & H). exists n. intros fuel s F <-.
    apply (answers_agree s (Slice 0 0 (cont s)) _ _ o (tell_agrees fuel e s QE)). now apply H.
  Qed.

  Theorem C105_no_panic e s fuel : patterns (fun _ => False) e ->
    parse (telling_on rules P fuel e) s <> Panic /\ parse (telling_on rules P fuel e) s <> UB.
  Proof.
    intros QE. pose proof (tell_agrees fuel e s QE) as H.
    destruct (tells_run eqb rules eqb_ok fuel e (Slice 0 0 (cont s))) as [E|(o & K & _)].
    - rewrite E in H. destruct (parse (telling_on rules P fuel e) s) as [[]| | |]; try contradiction; split; discriminate.
    - destruct (parse (telling_on rules P fuel e) s) as [[]| | |]; split; try discriminate;
        destruct o; destruct K as (? & K & _); rewrite K in H; contradiction.
  Qed.
End Grammar.

(** ** Cases *)

(** [é] some [b]s, then compulsorily [c]; over a text, over the text cut in
    three with a gap, and over the slice of its characters. *)
Definition cut_rules (_ : nat) : gexp char := GJoin (GThe 233%N) (GJoin (GRep (GThe 98%N)) (GCut (GThe 99%N))).
Example C105_case_whole :
  parse (telling_on cut_rules text_prims 9 (GRef 0)) (StrRef 7 4 (Str [233%N; 98%N; 98%N; 32%N])) =
    Ret (Err (WSecond (WSecond (WCut (WLeaf (QThe 99%N))))) (StrRef 7 8 (Str [32%N]))).
Proof. vm_compute. reflexivity. Qed.
Example C105_case_cut :
  parse (telling_on cut_rules text_prims 9 (GRef 0)) (Pieces [[233%N]; []; [98%N]; [98%N; 32%N]]) =
    Ret (Err (WSecond (WSecond (WCut (WLeaf (QThe 99%N))))) (Pieces [[32%N]])).
Proof. vm_compute. reflexivity. Qed.
Example C105_case_items :
  parse (telling_on cut_rules (item_prims N.eqb) 9 (GRef 0)) (Slice 7 0 [233%N; 98%N; 98%N; 32%N]) =
    Ret (Err (WSecond (WSecond (WCut (WLeaf (QThe 99%N))))) (Slice 7 3 [32%N])).
Proof. vm_compute. reflexivity. Qed.
Example C105_case_reads : reads_items (S := pieces) text_prims text (fun _ _ => True) /\
  reads_items (S := strref) text_prims text later_str /\ reads_items (S := slice char) (item_prims N.eqb) (fun s => sl_data s) later_slice.
Proof. repeat apply conj; [apply text_reads, pieces_positions|apply text_reads, str_positions|apply slice_reads, char_eqb_ok]. Qed.

Print Assumptions C105_every_combinator.
Print Assumptions C105_text.
Print Assumptions C105_items.
Print Assumptions C105_text_cut.
Print Assumptions C105_text_as_items.
Print Assumptions C105_grammar.
Print Assumptions C105_reasons.
Print Assumptions C105_budget_irrelevant.
Print Assumptions C105_no_panic.
