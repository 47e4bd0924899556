(** * P_Never: property C71, [always_first] and [always_last]. *)
From Verif Require Import M_Base S_Never.

Lemma no_empty_array_no_value T : no_empty_array T -> no_value T.
Proof.
  induction 1 as [|T E _ I1 _ I2|T n Hn _ I|T0 T1 _ I1 _ I2|T0 T1 _ I1 _ I2]; unfold no_value in *.
  - intros [].
  - intros [x|x]; auto.
  - intros [[|x l] E]; cbn in E; [lia|auto].
  - intros [x|x]; auto.
  - intros [x|x|x y]; auto.
Qed.

Lemma no_empty_array_marked T : no_empty_array T -> ShouldNever T.
Proof. induction 1; constructor; assumption. Qed.

(** Refuted: [[Never; 0]] is marked and has a value, on which the accessors panic. *)
Theorem C71_empty_array_refuted :
  exists (N : Type) (SN : ShouldNever N) (x : N),
    (forall T, either_always_first (T0 := T) (T1 := N) (Last x) = Panic) /\
    (forall T, either_always_last (T0 := N) (T1 := T) (First x) = Panic) /\
    (forall T (t : T), both_always_first (T1 := N) (BBoth t x) = Panic) /\
    (forall T (t : T), both_always_last (T0 := N) (BBoth x t) = Panic).
Proof. exists (array Never 0), (sn_array 0 sn_never), (exist (fun l : list Never => length l = 0) [] eq_refl). repeat split. Qed.

(** Otherwise the accessors return, and what they return is the value held. *)
Theorem C71_always_partial (T N : Type) (SN : ShouldNever N) :
  no_empty_array N ->
  (forall e : Either T N, exists x, e = First x /\ either_always_first e = Ret x) /\
  (forall e : Either N T, exists x, e = Last x /\ either_always_last e = Ret x) /\
  (forall e : EitherBoth T N, exists x, e = BFirst x /\ both_always_first e = Ret x) /\
  (forall e : EitherBoth N T, exists x, e = BLast x /\ both_always_last e = Ret x).
Proof.
  intros H. pose proof (no_empty_array_no_value N H) as V. unfold no_value in V.
  split; [|split; [|split]]; intros e; destruct e; try (exfalso; auto; fail); eauto.
Qed.

(** Exact, for every marked type: a panic comes from a value that should not be. *)
Theorem C71_panics_iff (T N : Type) (SN : ShouldNever N) :
  ((exists e : Either T N, either_always_first e = Panic) <-> inhabited N) /\
  ((exists e : Either N T, either_always_last e = Panic) <-> inhabited N) /\
  ((exists e : EitherBoth T N, both_always_first e = Panic) <-> inhabited N) /\
  ((exists e : EitherBoth N T, both_always_last e = Panic) <-> inhabited N).
Proof.
  split; [|split; [|split]]; split.
  - intros [[x|x] E]; [discriminate E|exact (inhabits x)].
  - intros [x]. now exists (Last x).
  - intros [[x|x] E]; [exact (inhabits x)|discriminate E].
  - intros [x]. now exists (First x).
  - intros [[x|x|x y] E]; [discriminate E|exact (inhabits x)|exact (inhabits y)].
  - intros [x]. now exists (BLast x).
  - intros [[x|x|x y] E]; [exact (inhabits x)|discriminate E|exact (inhabits x)].
  - intros [x]. now exists (BFirst x).
Qed.

(** [unwrap_first] and [unwrap_last] panic exactly on the other side. *)
Theorem C71_unwrap {T0 T1} (e : Either T0 T1) :
  (forall x, unwrap_first e = Ret x <-> e = First x) /\ (unwrap_first e = Panic <-> exists y, e = Last y) /\
  (forall y, unwrap_last e = Ret y <-> e = Last y) /\ (unwrap_last e = Panic <-> exists x, e = First x) /\
  unwrap_first e <> UB /\ unwrap_last e <> UB.
Proof.
  destruct e as [a|a]; cbn; repeat split; intros; try congruence; eauto;
    match goal with H : exists _, _ |- _ => destruct H; discriminate end.
Qed.

(** [Result<Never, [Never; 3]>] qualifies. *)
Example C71_case : no_empty_array (result Never (array Never 3)).
Proof. repeat constructor. Qed.

Print Assumptions C71_empty_array_refuted.
Print Assumptions C71_always_partial.
Print Assumptions C71_panics_iff.
Print Assumptions C71_unwrap.
