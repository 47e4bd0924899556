(** * P_Comb: the combinator properties C01-C08, C13, C21, C22, C60. *)
From Verif Require Import L_Comb2.

(** A slice of naturals and a few parsers over it, for the examples. *)
Definition nums (l : list nat) : slice nat := Slice 1 0 l.
Definition the n : dparser (slice nat) unit (Miss unit) := the_item Nat.eqb n.
Definition anyp : dparser (slice nat) nat (Miss unit) := any_item.
(** Fails fatally after consuming one item. *)
Definition fatal_after_one : dparser (slice nat) nat (Fatal nat) :=
  closure (fun s => match sl_data s with
                    | [] => Ret (Err (MkFatal 0) s)
                    | x :: _ => s' <- slice_advance s 1 ;; Ret (Err (MkFatal x) s')
                    end).

Section Properties.
  Context {S A : Type} {RS : RewindSequence S A} {reach : S -> S -> Prop}.
  Context (LR : lawful_rewind reach).

  (** C01: [or] is ordered choice; the second branch starts where the first did. *)
  Theorem C01_or_is_ordered_choice {O0 E0 O1 E1} `{ParseError E0} `{ParseError E1}
    (a : dparser S O0 E0) (b : dparser S O1 E1) :
    (forward reach (parse a) -> forall s v,
       behaves (parse (Or a b)) s v <-> choice (behaves (parse a)) (behaves (parse b)) s v) /\
    (forward reach (parse_once a) -> forall s v,
       behaves (parse_once (Or a b)) s v <-> choice (behaves (parse_once a)) (behaves (parse_once b)) s v).
  Proof.
    split; intros Hf s v.
    - exact (or_parse_spec LR a b Hf s v).
    - exact (or_parse_spec LR (DP (parse_once a) (parse_once a)) (DP (parse_once b) (parse_once b)) Hf s v).
  Qed.

  (** C02: which error [or] reports, and whether it terminates. *)
  Theorem C02_or_errors {O0 E0 O1 E1} `{ParseError E0} `{ParseError E1}
    (a : dparser S O0 E0) (b : dparser S O1 E1) (Hf : forward reach (parse a)) s :
    (forall e, (exists l, parse (Or a b) s = Ret (Err (BFirst e) l)) <->
               (should_terminate e = true /\ exists l, parse a s = Ret (Err e l))) /\
    (forall e, (exists l, parse (Or a b) s = Ret (Err (BLast e) l)) <->
               (should_terminate e = true /\ (exists l, parse b s = Ret (Err e l)) /\
                exists e0 l, parse a s = Ret (Err e0 l) /\ should_terminate e0 = false)) /\
    (forall e0 e1, (exists l, parse (Or a b) s = Ret (Err (BBoth e0 e1) l)) <->
               (should_terminate e0 = false /\ should_terminate e1 = false /\
                (exists l, parse a s = Ret (Err e0 l)) /\ exists l, parse b s = Ret (Err e1 l))) /\
    (forall e l, parse (Or a b) s = Ret (Err e l) ->
       (should_terminate e = true <-> match e with BFirst _ | BLast _ => True | BBoth _ _ => False end)).
  Proof. exact (or_errors_exact LR a b Hf s). Qed.
  Theorem C02_or_errors_once {O0 E0 O1 E1} `{ParseError E0} `{ParseError E1}
    (a : dparser S O0 E0) (b : dparser S O1 E1) (Hf : forward reach (parse_once a)) s :
    (forall e, (exists l, parse_once (Or a b) s = Ret (Err (BFirst e) l)) <->
               (should_terminate e = true /\ exists l, parse_once a s = Ret (Err e l))) /\
    (forall e, (exists l, parse_once (Or a b) s = Ret (Err (BLast e) l)) <->
               (should_terminate e = true /\ (exists l, parse_once b s = Ret (Err e l)) /\
                exists e0 l, parse_once a s = Ret (Err e0 l) /\ should_terminate e0 = false)) /\
    (forall e0 e1, (exists l, parse_once (Or a b) s = Ret (Err (BBoth e0 e1) l)) <->
               (should_terminate e0 = false /\ should_terminate e1 = false /\
                (exists l, parse_once a s = Ret (Err e0 l)) /\ exists l, parse_once b s = Ret (Err e1 l))) /\
    (forall e l, parse_once (Or a b) s = Ret (Err e l) ->
       (should_terminate e = true <-> match e with BFirst _ | BLast _ => True | BBoth _ _ => False end)).
  Proof. exact (or_errors_exact LR (closure (parse_once a)) (closure (parse_once b)) Hf s). Qed.

  (** C03 *)
  Theorem C03_optional {O E} `{ParseError E} (p : dparser S O E) :
    (forward reach (parse p) -> forall s v,
       behaves (parse (Optional p)) s v <-> option_spec (behaves (parse p)) s v) /\
    (forward reach (parse_once p) -> forall s v,
       behaves (parse_once (Optional p)) s v <-> option_spec (behaves (parse_once p)) s v).
  Proof.
    split; intros Hf s v.
    - exact (optional_parse_spec LR p Hf s v).
    - exact (optional_parse_spec LR (DP (parse_once p) (parse_once p)) Hf s v).
  Qed.

  (** C04: [join] is sequencing, and sequencing is associative. *)
  Theorem C04_join_is_sequence {O0 E0 O1 E1} `{ParseError E0} `{ParseError E1}
    (a : dparser S O0 E0) (b : dparser S O1 E1) :
    (forall s v, behaves (parse (Join a b)) s v <-> sequence (behaves (parse a)) (behaves (parse b)) s v) /\
    (forall s v, behaves (parse_once (Join a b)) s v <->
            sequence (behaves (parse_once a)) (behaves (parse_once b)) s v).
  Proof.
    split; intros s v.
    - exact (join_parse_spec a b s v).
    - exact (join_parse_spec (DP (parse_once a) (parse_once a)) (DP (parse_once b) (parse_once b)) s v).
  Qed.

  Theorem C04_join_associative {O0 E0 O1 E1 O2 E2} `{ParseError E0} `{ParseError E1} `{ParseError E2}
    (a : dparser S O0 E0) (b : dparser S O1 E1) (c : dparser S O2 E2) s w :
    behaves (parse (Join a (Join b c))) s w <->
    exists v, behaves (parse (Join (Join a b) c)) s v /\ rebracket v = w.
  Proof. exact (join_assoc_exact a b c s w). Qed.

  (** C05: the mapping combinators. Success values/errors are mapped, the
      position (of successes and of failures) is untouched. *)
  Theorem C05_map {O E U} (p : dparser S O E) (f : O -> U) s :
    (forall u r, parse (Map p f) s = Ret (Ok u r) <-> exists v, parse p s = Ret (Ok v r) /\ u = f v) /\
    (forall e l, parse (Map p f) s = Ret (Err e l) <-> parse p s = Ret (Err e l)).
  Proof. exact (map_exact p f s). Qed.

  Theorem C05_map_err {O E U} (p : dparser S O E) (f : E -> U) s :
    (forall v r, parse (MapErr p f) s = Ret (Ok v r) <-> parse p s = Ret (Ok v r)) /\
    (forall e' l, parse (MapErr p f) s = Ret (Err e' l) <-> exists e, parse p s = Ret (Err e l) /\ e' = f e).
  Proof. exact (map_err_exact p f s). Qed.

  Theorem C05_and_then {O E O' E'} (from : E -> E') (p : dparser S O E) (f : O -> result O' E') s :
    (forall u r, parse (AndThen from p f) s = Ret (Ok u r) <->
            exists v, parse p s = Ret (Ok v r) /\ f v = ROk u) /\
    (forall e' l, parse (AndThen from p f) s = Ret (Err e' l) <->
            (exists v, parse p s = Ret (Ok v l) /\ f v = RErr e') \/
            (exists e, parse p s = Ret (Err e l) /\ e' = from e)).
  Proof. exact (and_then_exact from p f s). Qed.

  Theorem C05_unify {E T0 T1 T} (i0 : T0 -> T) (i1 : T1 -> T) (p : dparser S (Either T0 T1) E) s :
    (forall u r, parse (Unify i0 i1 p) s = Ret (Ok u r) <->
            (exists x, parse p s = Ret (Ok (First x) r) /\ u = i0 x) \/
            (exists x, parse p s = Ret (Ok (Last x) r) /\ u = i1 x)) /\
    (forall e l, parse (Unify i0 i1 p) s = Ret (Err e l) <-> parse p s = Ret (Err e l)).
  Proof. exact (unify_exact i0 i1 p s). Qed.

  Theorem C05_unify_err {O T0 T1 T} (i0 : T0 -> T) (i1 : T1 -> T) (p : dparser S O (Either T0 T1)) s :
    (forall v r, parse (UnifyErr i0 i1 p) s = Ret (Ok v r) <-> parse p s = Ret (Ok v r)) /\
    (forall e l, parse (UnifyErr i0 i1 p) s = Ret (Err e l) <->
            (exists x, parse p s = Ret (Err (First x) l) /\ e = i0 x) \/
            (exists x, parse p s = Ret (Err (Last x) l) /\ e = i1 x)).
  Proof. exact (unify_err_exact i0 i1 p s). Qed.

  Theorem C05_ref_boxed {O E} (p : dparser S O E) s :
    parse (Ref p) s = parse p s /\ parse (Boxed p) s = parse p s /\
    parse_once (Boxed p) s = parse_once p s.
  Proof. exact (ref_boxed_exact p s). Qed.

  (** Functor laws. *)
  Theorem C05_map_compose {O E U V} (p : dparser S O E) (f : O -> U) (g : U -> V) s :
    parse (Map (Map p f) g) s = parse (Map p (fun x => g (f x))) s /\
    parse (Map p (fun x => x)) s = parse p s.
  Proof. exact (map_compose_exact p f g s). Qed.

  (** The same for parsers that are consumed. *)
  Theorem C05_map_once {O E U} (p : dparser S O E) (f : O -> U) s :
    (forall u r, parse_once (Map p f) s = Ret (Ok u r) <-> exists v, parse_once p s = Ret (Ok v r) /\ u = f v) /\
    (forall e l, parse_once (Map p f) s = Ret (Err e l) <-> parse_once p s = Ret (Err e l)).
  Proof. exact (map_exact (closure (parse_once p)) f s). Qed.
  Theorem C05_map_err_once {O E U} (p : dparser S O E) (f : E -> U) s :
    (forall v r, parse_once (MapErr p f) s = Ret (Ok v r) <-> parse_once p s = Ret (Ok v r)) /\
    (forall e' l, parse_once (MapErr p f) s = Ret (Err e' l) <-> exists e, parse_once p s = Ret (Err e l) /\ e' = f e).
  Proof. exact (map_err_exact (closure (parse_once p)) f s). Qed.
  Theorem C05_and_then_once {O E O' E'} (from : E -> E') (p : dparser S O E) (f : O -> result O' E') s :
    (forall u r, parse_once (AndThen from p f) s = Ret (Ok u r) <->
            exists v, parse_once p s = Ret (Ok v r) /\ f v = ROk u) /\
    (forall e' l, parse_once (AndThen from p f) s = Ret (Err e' l) <->
            (exists v, parse_once p s = Ret (Ok v l) /\ f v = RErr e') \/
            (exists e, parse_once p s = Ret (Err e l) /\ e' = from e)).
  Proof. exact (and_then_exact from (closure (parse_once p)) f s). Qed.
  Theorem C05_unify_once {E T0 T1 T} (i0 : T0 -> T) (i1 : T1 -> T) (p : dparser S (Either T0 T1) E) s :
    (forall u r, parse_once (Unify i0 i1 p) s = Ret (Ok u r) <->
            (exists x, parse_once p s = Ret (Ok (First x) r) /\ u = i0 x) \/
            (exists x, parse_once p s = Ret (Ok (Last x) r) /\ u = i1 x)) /\
    (forall e l, parse_once (Unify i0 i1 p) s = Ret (Err e l) <-> parse_once p s = Ret (Err e l)).
  Proof.
    assert (parse_once (Unify i0 i1 p) s = parse (Unify i0 i1 (closure (parse_once p))) s) as ->.
    { cbn. unfold unify_parse_once, unify_parse, closure. cbn. destruct (parse_once p s) as [[[o|o] r|e r]| | |]; reflexivity. }
    exact (unify_exact i0 i1 (closure (parse_once p)) s).
  Qed.
  Theorem C05_unify_err_once {O T0 T1 T} (i0 : T0 -> T) (i1 : T1 -> T) (p : dparser S O (Either T0 T1)) s :
    (forall v r, parse_once (UnifyErr i0 i1 p) s = Ret (Ok v r) <-> parse_once p s = Ret (Ok v r)) /\
    (forall e l, parse_once (UnifyErr i0 i1 p) s = Ret (Err e l) <->
            (exists x, parse_once p s = Ret (Err (First x) l) /\ e = i0 x) \/
            (exists x, parse_once p s = Ret (Err (Last x) l) /\ e = i1 x)).
  Proof.
    assert (parse_once (UnifyErr i0 i1 p) s = parse (UnifyErr i0 i1 (closure (parse_once p))) s) as ->.
    { cbn. unfold unify_err_parse_once, unify_err_parse, closure. cbn. destruct (parse_once p s) as [[o r|[e|e] r]| | |]; reflexivity. }
    exact (unify_err_exact i0 i1 (closure (parse_once p)) s).
  Qed.
  Theorem C05_map_compose_once {O E U V} (p : dparser S O E) (f : O -> U) (g : U -> V) s :
    parse_once (Map (Map p f) g) s = parse_once (Map p (fun x => g (f x))) s /\
    parse_once (Map p (fun x => x)) s = parse_once p s.
  Proof. exact (map_compose_exact (closure (parse_once p)) f g s). Qed.

  (** C06 (parsers; the iterative part is in P_Iter.v). *)
  Theorem C06_parse_once_is_parse :
    (forall O0 E0 O1 E1 `(ParseError E0) `(ParseError E1) (a : dparser S O0 E0) (b : dparser S O1 E1),
       coherent a -> coherent b -> coherent (Or a b) /\ coherent (Join a b)) /\
    (forall O E U (p : dparser S O E) (f : O -> U), coherent p -> coherent (Map p f)) /\
    (forall O E U (p : dparser S O E) (f : E -> U), coherent p -> coherent (MapErr p f)) /\
    (forall O E O' E' (from : E -> E') (p : dparser S O E) (f : O -> result O' E'),
       coherent p -> coherent (AndThen from p f)) /\
    (forall E T0 T1 T (i0 : T0 -> T) (i1 : T1 -> T) (p : dparser S (Either T0 T1) E),
       coherent p -> coherent (Unify i0 i1 p)) /\
    (forall O T0 T1 T (i0 : T0 -> T) (i1 : T1 -> T) (p : dparser S O (Either T0 T1)),
       coherent p -> coherent (UnifyErr i0 i1 p)) /\
    (forall O E `(ParseError E) (p : dparser S O E) fuel,
       coherent p -> coherent (Ref p) /\ coherent (Boxed p) /\ coherent (Optional p) /\ coherent (Repeat fuel p)).
  Proof. exact coherent_closed. Qed.

  (** C07: [repeat] is maximal munch (whatever loop budget it returns with). *)
  Theorem C07_repeat_maximal_munch {O E} `{ParseError E} (p : dparser S O E)
    (Hf : forward reach (parse p)) s v :
    v <> Crash CFuel ->
    (exists fuel, behaves (parse (Repeat fuel p)) s v) <-> repetition (behaves (parse p)) s v.
  Proof. exact (repeat_exact LR p Hf s (v := v)). Qed.

  Theorem C07_repeat_budget_irrelevant {O E} `{ParseError E} (p : dparser S O E) fuel fuel' s x :
    parse (Repeat fuel p) s = x -> x <> OutOfFuel -> fuel <= fuel' -> parse (Repeat fuel' p) s = x.
  Proof. exact (repeat_loop_mono p s [] (fuel:=fuel) (x:=x) (fuel':=fuel')). Qed.

  (** C08: termination and divergence. *)
  Theorem C08_repeat_terminates {O E} `{ParseError E} (p : dparser S O E) (size : S -> nat) :
    forward reach (parse p) ->
    (forall s o r, parse p s = Ret (Ok o r) -> size r < size s) ->
    (forall s, parse p s <> OutOfFuel) ->
    forall s, parse (Repeat (size s + 1) p) s <> OutOfFuel.
  Proof. exact (repeat_terminates_exact LR p size). Qed.

  Theorem C08_repeat_diverges {O E} `{ParseError E} (p : dparser S O E) s vs r o :
    many (behaves (parse p)) s vs r -> parse p r = Ret (Ok o r) ->
    forall fuel, parse (Repeat fuel p) s = OutOfFuel.
  Proof. exact (@repeat_diverges _ _ _ _ _ _ p s vs r o). Qed.

  (** C13: terminating errors are never swallowed (BinExprParser: P_BinExpr.v). *)
  Theorem C13_fatal_not_swallowed :
    (forall O0 E0 O1 E1 `(ParseError E0) `(ParseError E1) (a : dparser S O0 E0) (b : dparser S O1 E1),
      forward reach (parse a) -> forall s,
      (forall e, behaves (parse a) s (Cut e) -> behaves (parse (Or a b)) s (Cut (BFirst e))) /\
      (forall e0 e, behaves (parse a) s (Missed e0) -> behaves (parse b) s (Cut e) ->
               behaves (parse (Or a b)) s (Cut (BLast e))) /\
      (forall e, behaves (parse a) s (Cut e) -> behaves (parse (Join a b)) s (Cut (First e))) /\
      (forall x m e, behaves (parse a) s (Succ x m) -> behaves (parse b) m (Cut e) ->
               behaves (parse (Join a b)) s (Cut (Last e)))) /\
    (forall O E U `(ParseError E) (p : dparser S O E) (f : O -> U),
      forward reach (parse p) -> forall s e, behaves (parse p) s (Cut e) ->
      behaves (parse (Optional p)) s (Cut e) /\ behaves (parse (Map p f)) s (Cut e)) /\
    (forall O E `(ParseError E) (p : dparser S O E), forward reach (parse p) ->
      forall s vs r e, many (behaves (parse p)) s vs r -> behaves (parse p) r (Cut e) ->
      forall fuel, length vs < fuel -> behaves (parse (Repeat fuel p)) s (Cut e)).
  Proof. exact (fatal_not_swallowed LR). Qed.

  (** C21: only the verdict of a sub-parser matters, not where it left the
      sequence when it failed. *)
  Theorem C21_failure_location_unobservable :
    (forall O0 E0 O1 E1 `(ParseError E0) `(ParseError E1)
       (a a' : dparser S O0 E0) (b b' : dparser S O1 E1),
      forward reach (parse a) -> forward reach (parse a') ->
      same_behaviour (behaves (parse a)) (behaves (parse a')) ->
      same_behaviour (behaves (parse b)) (behaves (parse b')) ->
      same_behaviour (behaves (parse (Or a b))) (behaves (parse (Or a' b'))) /\
      same_behaviour (behaves (parse (Join a b))) (behaves (parse (Join a' b')))) /\
    (forall O E U `(ParseError E) (p p' : dparser S O E) (f : O -> U) fuel,
      forward reach (parse p) -> forward reach (parse p') ->
      same_behaviour (behaves (parse p)) (behaves (parse p')) ->
      same_behaviour (behaves (parse (Optional p))) (behaves (parse (Optional p'))) /\
      same_behaviour (behaves (parse (Map p f))) (behaves (parse (Map p' f))) /\
      same_behaviour (behaves (parse (Repeat fuel p))) (behaves (parse (Repeat fuel p')))).
  Proof. exact (failure_location_unobservable LR). Qed.

  (** C22: combinators only move forward. *)
  Theorem C22_forward :
    (forall O0 E0 O1 E1 `(ParseError E0) `(ParseError E1) (a : dparser S O0 E0) (b : dparser S O1 E1),
      forward reach (parse a) -> forward reach (parse b) ->
      forward reach (parse (Or a b)) /\ forward reach (parse (Join a b))) /\
    (forall O E U (p : dparser S O E) (f : O -> U), forward reach (parse p) -> forward reach (parse (Map p f))) /\
    (forall O E U (p : dparser S O E) (f : E -> U), forward reach (parse p) -> forward reach (parse (MapErr p f))) /\
    (forall O E O' E' (from : E -> E') (p : dparser S O E) (f : O -> result O' E'),
      forward reach (parse p) -> forward reach (parse (AndThen from p f))) /\
    (forall E T0 T1 T (i0 : T0 -> T) (i1 : T1 -> T) (p : dparser S (Either T0 T1) E),
      forward reach (parse p) -> forward reach (parse (Unify i0 i1 p))) /\
    (forall O T0 T1 T (i0 : T0 -> T) (i1 : T1 -> T) (p : dparser S O (Either T0 T1)),
      forward reach (parse p) -> forward reach (parse (UnifyErr i0 i1 p))) /\
    (forall O E `(ParseError E) (p : dparser S O E) fuel, forward reach (parse p) ->
      forward reach (parse (Ref p)) /\ forward reach (parse (Boxed p)) /\
      forward reach (parse (Optional p)) /\ forward reach (parse (Repeat fuel p))).
  Proof. exact (forward_closed LR). Qed.
End Properties.

(** C60: [should_terminate] on the error types of the crate. *)
Theorem C60_error_algebra {E E'} `{ParseError E} `{ParseError E'} :
  (forall (e : E), should_terminate (MkMiss e) = false /\ should_terminate (MkFatal e) = true /\
     should_terminate (Some e) = should_terminate e /\ should_terminate (@None E) = false /\
     should_terminate (@First E E' e) = should_terminate e /\
     should_terminate (@BFirst E E' e) = should_terminate e) /\
  (forall (e : E'), should_terminate (@Last E E' e) = should_terminate e /\
     should_terminate (@BLast E E' e) = should_terminate e) /\
  (forall (e : E) (e' : E'), should_terminate (BBoth e e') = true <->
     should_terminate e = true \/ should_terminate e' = true).
Proof. exact error_algebra. Qed.

(** ** Concrete cases meeting the hypotheses *)

Example slices_are_lawful : lawful_rewind (@later_slice nat).
Proof. exact slice_lawful. Qed.
Example the_is_forward n : forward (@later_slice nat) (parse (the n)).
Proof. exact (the_item_forward_slice Nat.eqb n). Qed.
Example anyp_is_forward : forward (@later_slice nat) (parse anyp).
Proof. exact any_item_forward_slice. Qed.

(** join the 1 then the 2 moves before missing; or restores and takes any. *)
Example C01_case :
  parse (Or (Join (the 1) (the 2)) anyp) (nums [1; 3]) = Ret (Ok (Last 1) (Slice 1 1 [3])).
Proof. reflexivity. Qed.
Example C01_moved_before_missing :
  parse (Join (the 1) (the 2)) (nums [1; 3]) = Ret (Err (Last (MkMiss tt)) (Slice 1 1 [3])).
Proof. reflexivity. Qed.
Example C02_case_first :
  parse (Or fatal_after_one anyp) (nums [1; 3]) = Ret (Err (BFirst (MkFatal 1)) (Slice 1 1 [3])).
Proof. reflexivity. Qed.
Example C02_case_last :
  parse (Or (the 2) fatal_after_one) (nums [1; 3]) = Ret (Err (BLast (MkFatal 1)) (Slice 1 1 [3])).
Proof. reflexivity. Qed.
Example C02_case_both :
  parse (Or (the 2) (the 3)) (nums [1; 3]) = Ret (Err (BBoth (MkMiss tt) (MkMiss tt)) (nums [1; 3])).
Proof. reflexivity. Qed.
Example C03_case :
  parse (Optional (Join (the 1) (the 2))) (nums [1; 3]) = Ret (Ok (RErr (Last (MkMiss tt))) (nums [1; 3])).
Proof. reflexivity. Qed.
Example C07_case :
  parse (Repeat 10 (the 1)) (nums [1; 1; 1; 2]) = Ret (Ok ([tt; tt; tt], MkMiss tt) (Slice 1 3 [2])).
Proof. reflexivity. Qed.
Example C08_progress_case s o r :
  parse (the 1) s = Ret (Ok o r) -> length (sl_data r) < length (sl_data s).
Proof. exact (the_item_progress_slice Nat.eqb 1 s (o:=o) (r:=r)). Qed.
Example C08_divergence_case :
  many (behaves (parse (Optional (the 1)))) (nums [1; 2]) [ROk tt] (Slice 1 1 [2]) /\
  parse (Optional (the 1)) (Slice 1 1 [2]) = Ret (Ok (RErr (MkMiss tt)) (Slice 1 1 [2])).
Proof. split; [econstructor; [reflexivity|constructor]|reflexivity]. Qed.
Example C13_case :
  parse (Repeat 5 (Or (the 1) fatal_after_one)) (nums [1; 1; 7; 2])
  = Ret (Err (BLast (MkFatal 7)) (Slice 1 3 [2])).
Proof. reflexivity. Qed.
(** Two parsers that differ only in the failure location: one moves by an item
    before it misses, one does not. *)
Definition miss_late : dparser (slice nat) nat (Miss unit) :=
  closure (fun s => match sl_data s with
                    | [] => Ret (Err (MkMiss tt) s)
                    | _ => s' <- slice_advance s 1 ;; Ret (Err (MkMiss tt) s')
                    end).
Definition miss_early : dparser (slice nat) nat (Miss unit) :=
  closure (fun s => Ret (Err (MkMiss tt) s)).
Example C21_case :
  same_behaviour (behaves (parse miss_late)) (behaves (parse miss_early)) /\
  forward (@later_slice nat) (parse miss_late) /\ forward (@later_slice nat) (parse miss_early) /\
  parse miss_late (nums [1; 2]) <> parse miss_early (nums [1; 2]).
Proof.
  split; [|split; [|split]].
  - intros s v. unfold behaves. cbn. destruct v as [? ?|e|e|[]]; destruct (sl_data s) eqn:E; cbn;
      unfold slice_advance; rewrite ?E; cbn; split; intros H;
      repeat match goal with
             | H : _ /\ _ |- _ => destruct H
             | H : exists _, _ |- _ => destruct H
             | H : Ret _ = Ret _ |- _ => inversion H; subst; clear H
             end; try congruence; split; auto; eexists; reflexivity.
  - intros s r. cbn. destruct (sl_data s) eqn:E.
    + injection 1 as <-. apply later_slice_refl.
    + destruct (slice_advance s 1) eqn:Ha; cbn; try discriminate.
      injection 1 as <-. exact (slice_advance_later _ _ Ha).
  - intros s r. cbn. injection 1 as <-. apply later_slice_refl.
  - discriminate.
Qed.

Print Assumptions C01_or_is_ordered_choice.
Print Assumptions C02_or_errors.
Print Assumptions C02_or_errors_once.
Print Assumptions C03_optional.
Print Assumptions C04_join_is_sequence.
Print Assumptions C04_join_associative.
Print Assumptions C05_map.
Print Assumptions C05_map_err.
Print Assumptions C05_and_then.
Print Assumptions C05_unify.
Print Assumptions C05_unify_err.
Print Assumptions C05_ref_boxed.
Print Assumptions C05_map_compose.
Print Assumptions C05_map_once.
Print Assumptions C05_map_err_once.
Print Assumptions C05_and_then_once.
Print Assumptions C05_unify_once.
Print Assumptions C05_unify_err_once.
Print Assumptions C05_map_compose_once.
Print Assumptions C06_parse_once_is_parse.
Print Assumptions C07_repeat_maximal_munch.
Print Assumptions C07_repeat_budget_irrelevant.
Print Assumptions C08_repeat_terminates.
Print Assumptions C08_repeat_diverges.
Print Assumptions C13_fatal_not_swallowed.
Print Assumptions C21_failure_location_unobservable.
Print Assumptions C22_forward.
Print Assumptions C60_error_algebra.
