(** * L_Base: list facts used in several proofs. *)
From Verif Require Export M_Base.

Lemma skipn_length_app {T} (a b : list T) : skipn (length a) (a ++ b) = b.
Proof. induction a; cbn; auto. Qed.
Lemma firstn_length_app {T} (a b : list T) : firstn (length a) (a ++ b) = a.
Proof. induction a; cbn; congruence. Qed.

Lemma skipn_add {T} n m (l : list T) : skipn m (skipn n l) = skipn (n + m) l.
Proof.
  revert l. induction n as [|n IH]; intros l; cbn; auto.
  destruct l as [|x l]; [now rewrite skipn_nil|apply IH].
Qed.

Lemma firstn_add {T} n m (l : list T) : firstn (n + m) l = firstn n l ++ firstn m (skipn n l).
Proof.
  revert l. induction n as [|n IH]; intros l; cbn; auto.
  destruct l as [|x l]; [now rewrite firstn_nil|]. cbn. now rewrite IH.
Qed.

Lemma app_inv_length {T} (a b c d : list T) : a ++ b = c ++ d -> length a = length c -> a = c /\ b = d.
Proof.
  revert c. induction a as [|x a IH]; intros [|y c] H Hl; cbn in *; try discriminate; auto.
  injection H as -> H. destruct (IH c H) as [-> ->]; auto.
Qed.

Lemma bind_ret {A B} (m : comp A) (k : A -> comp B) b :
  bind m k = Ret b -> exists a, m = Ret a /\ k a = Ret b.
Proof. destruct m; cbn; intros H; try discriminate. eauto. Qed.
