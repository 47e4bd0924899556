(** * P_Reactive: property C63. *)
From Verif Require Import M_Reactive L_Base.

Section Filters.
  Context {T : Type}.

  (** The filters of an observable, the one nearest the source first. *)
  Fixpoint filters (o : observable T) : list (T -> comp bool) :=
    match o with Root => [] | Filter s p => filters s ++ [p] end.

  (** The plain predicates [ps] never panic and decide as the filters do. *)
  Definition decided_by (o : observable T) (ps : list (T -> bool)) : Prop :=
    Forall2 (fun f p => forall x, f x = Ret (p x)) (filters o) ps.

  Definition admits (ps : list (T -> bool)) (x : T) : bool := forallb (fun p => p x) ps.

  Lemma subscribe_one {St} (o : observable T) : forall ps (nx : observer St) st x, decided_by o ps ->
    subscribe o nx st x = if admits ps x then nx st x else Ret st.
  Proof.
    induction o as [|s IH p]; intros ps nx st x D; cbn.
    - inversion D; subst. reflexivity.
    - unfold decided_by in D. cbn in D. apply Forall2_app_inv_l in D. destruct D as (p1 & p2 & D1 & D2 & ->).
      inversion D2 as [|? q ? l Hq Hl]; subst. inversion Hl; subst.
      rewrite (IH p1 _ st x D1). unfold admits. rewrite forallb_app. cbn.
      destruct (forallb (fun p0 => p0 x) p1); cbn; auto. unfold filter_next. rewrite Hq. cbn.
      now destruct (q x).
  Qed.

  (** The subscriber gets exactly the items that pass every filter, in order,
      and nothing else happens to it. *)
  Theorem C63_exactly_the_matching {St} (o : observable T) ps (nx : observer St) : decided_by o ps ->
    forall items st, emit (subscribe o nx) st items = emit nx st (filter (admits ps) items).
  Proof.
    intros D. induction items as [|x items IH]; intros st; cbn; auto.
    rewrite (subscribe_one o ps nx st x D). destruct (admits ps x); cbn.
    - destruct (nx st x); cbn; auto.
    - apply IH.
  Qed.

  (** A filter further from the source is not asked about what a nearer one
      rejects. *)
  Theorem C63_rejected_first {St} (s : observable T) ps (p : T -> comp bool) (nx : observer St) st x :
    decided_by s ps -> admits ps x = false -> subscribe (Filter s p) nx st x = Ret st.
  Proof. intros D A. cbn. rewrite (subscribe_one s ps _ st x D), A. reflexivity. Qed.
End Filters.

(** A recording subscriber behind two filters, the second of which keeps even numbers. *)
Definition record : observer (T := nat) (list nat) := fun st x => Ret (st ++ [x]).
Definition two_filters : observable nat :=
  Filter (Filter Root (fun x => Ret (Nat.ltb 2 x))) (fun x => Ret (Nat.even x)).
Example C63_case : emit (subscribe two_filters record) [] [1; 8; 3; 2; 4; 6; 5] = Ret [8; 4; 6].
Proof. reflexivity. Qed.
Example C63_case_hypotheses : decided_by two_filters [Nat.ltb 2; Nat.even].
Proof. repeat constructor. Qed.
Example C63_case_rejected :
  subscribe (Filter (Filter Root (fun x => Ret (Nat.ltb 2 x))) (fun _ => Panic)) record [9] 1 = Ret [9].
Proof. reflexivity. Qed.

Print Assumptions C63_exactly_the_matching.
Print Assumptions C63_rejected_first.
