(** * S_Metrics: lines of a text, without an automaton. *)
From Coq Require Import List Arith Bool NArith.
Import ListNotations.

(** A line closed by the terminator [t]: [t] ends it and occurs nowhere before. *)
Definition full_line {C} (t l : list C) : Prop :=
  (exists b, l = b ++ t) /\ forall a c, l = a ++ t ++ c -> c = [].

(** A last line that is not closed. *)
Definition open_line {C} (t l : list C) : Prop :=
  l <> [] /\ forall a c, l <> a ++ t ++ c.

(** [lines t text ls]: [ls] are the lines of [text], each with its terminator. *)
Definition lines {C} (t text : list C) (ls : list (list C)) : Prop :=
  concat ls = text /\
  exists full final, ls = full ++ final /\ Forall (full_line t) full /\
    (final = [] \/ exists l, final = [l] /\ open_line t l).

(** How many [c] the text ends with. *)
Fixpoint leading (c : N) (l : list N) : nat :=
  match l with [] => 0 | x :: l' => if N.eqb x c then S (leading c l') else 0 end.
Definition trailing (c : N) (l : list N) : nat := leading c (rev l).

(** A CR LF whose CR is the last of an even number of CRs, with text after it. *)
Definition even_crlf_inside (text : list N) : Prop :=
  exists a b, text = a ++ [10%N] ++ b /\ b <> [] /\ 0 < trailing 13 a /\ Nat.even (trailing 13 a) = true.

(** A CR LF whose CR is the last of an odd number of CRs, with text after it. *)
Definition crlf_inside (text : list N) : Prop :=
  exists p q, text = p ++ [10%N] ++ q /\ q <> [] /\ Nat.odd (trailing 13 p) = true.

(** An even number of CRs, an LF, and a text with such a terminator. *)
Definition realigned (b : list N) : Prop :=
  exists k b', b = repeat 13%N (2 * k) ++ [10%N] ++ b' /\ crlf_inside b'.
