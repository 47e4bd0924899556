(** * L_Unwind: drop glue. *)
From Verif Require Import M_Unwind S_Unwind.

Section Glue.
  Context {T : Type} (panics : T -> bool).

  (** Dropping a slice. *)
  Lemma glue_cases vs : forall b ds e, drop_in_place panics b vs = (ds, e) ->
    match e with
    | Returns => bad panics vs = 0 /\ ds = vs
    | Unwinds => b = false /\ bad panics vs = 1 /\ ds = vs
    | Aborts => (if b then 1 else 2) <= bad panics vs
    end.
  Proof.
    induction vs as [|v vs IH]; intros b ds e H; cbn in H; [injection H as <- <-; auto|].
    unfold bad in *. cbn. destruct (panics v) eqn:Q.
    - destruct b; [injection H as <- <-; cbn; lia|].
      destruct (drop_in_place panics true vs) as [ds1 e1] eqn:R. injection H as <- <-. specialize (IH _ _ _ R).
      destruct e1; cbn; [destruct IH as (A & ->); repeat split; lia|destruct IH; discriminate|lia].
    - destruct (drop_in_place panics b vs) as [ds1 e1] eqn:R. injection H as <- <-. specialize (IH _ _ _ R).
      destruct e1; [destruct IH as (A & ->); auto|destruct IH as (A & B & ->); auto|exact IH].
  Qed.
End Glue.

