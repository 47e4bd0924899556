(** * L_Async: lemmas for C70. *)
From Verif Require Import M_Async S_Async.

Lemma settled_bind {X Y} (t : task X) (k : X -> task Y) :
  settled (tbind t k) = bind (settled t) (fun x => settled (k x)).
Proof. induction t as [[x| | |]|t IH]; cbn; auto. Qed.

Lemma bind_ext {X Y} (m : comp X) (k k' : X -> comp Y) : (forall x, k x = k' x) -> bind m k = bind m k'.
Proof. intros H. destruct m; cbn; auto. Qed.

Lemma pendings_bind {X Y} (t : task X) (k : X -> task Y) :
  pendings (tbind t k) = pendings t + match settled t with Ret x => pendings (k x) | _ => 0 end.
Proof. induction t as [[x| | |]|t IH]; cbn; auto. Qed.

(** Unfolds binds on the left and walks down the code on both sides. *)
Ltac settle :=
  repeat first
    [ reflexivity
    | rewrite settled_bind
    | apply bind_ext; intros
    | match goal with
      | |- settled (match ?x with _ => _ end) = _ => destruct x
      | |- settled (if ?x then _ else _) = _ => destruct x
      | |- settled (let '(_, _) := ?x in _) = _ => destruct x
      end ].

Ltac calm :=
  repeat first
    [ reflexivity
    | rewrite pendings_bind
    | match goal with
      | H : prompt ?p |- context [pendings (aparse ?p ?s)] => rewrite (proj1 (H s))
      | H : prompt ?p |- context [pendings (aparse_once ?p ?s)] => rewrite (proj2 (H s))
      | H : prompt_sequence ?p |- context [pendings (a_rewind ?s ?a)] => rewrite (H s a)
      | H : forall _, pendings _ = 0 |- _ => rewrite H
      | H : forall _ _ _ _, pendings _ = 0 |- _ => rewrite H
      | H : forall _ _, pendings _ = 0 |- _ => rewrite H
      | |- 0 + _ = 0 => cbn [Nat.add]
      | |- match ?x with _ => _ end = 0 => destruct x
      | |- pendings (match ?x with _ => _ end) = 0 => destruct x
      end ].
