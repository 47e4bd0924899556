(** * P_Iter: properties C14-C20 of iterative parsers, and the iterative part of C06. *)
From Verif Require Import L_Iter.

Section Props.
  Context {S A : Type} {RS : RewindSequence S A} {reach : S -> S -> Prop}.
  Context (LR : lawful_rewind reach).

  (** ** C06, iterative part *)
  Theorem C06_iterative_once_is_iterative :
    (forall O E `(ParseError E) (p : dparser S O E), coherent p -> coherent_iter (OptionalIter p)) /\
    (forall O E `(ParseError E) (p : dparser S O E), coherent_iter (RepeatIter p)) /\
    (forall St O E (p : diter St S O E), coherent_iter p ->
       coherent_iter (IterRef p) /\
       (forall T (f : O -> T), coherent_iter (MapEach p f)) /\
       (forall T (f : O -> option T), coherent_iter (MapWhile p f)) /\
       (forall T E' `(ParseError E') (from : E -> E') (f : O -> result T E'), coherent_iter (TryMapEach from p f)) /\
       (forall T St2 (i : St2) (f : St2 -> O -> St2 * T), coherent_iter (Scan p i f)) /\
       (forall n, coherent_iter (Take p n)) /\
       (forall Acc fuel (i : Acc) f, coherent (Fold fuel p i f)) /\
       (forall C (d : C) ext fuel, coherent (Collect d ext fuel p))).
  Proof. exact coherent_iter_closed. Qed.

  (** ** C14 *)
  (** Refuted, for every iterative parser: collect never fails; a terminating
      error becomes a success carrying it. *)
  Theorem C14_collect_never_fails {St O E} (p : diter St S O E) fuel s e l :
    parse (Collect [] (fun c v => c ++ [v]) fuel p) s <> Ret (Err e l).
  Proof. apply collect_never_fails. Qed.

  (** ** C15 *)
  Theorem C15_collect {St O E} (p : diter St S O E) s l w fuel :
    forward_iter reach (parse_iterative p) ->
    run (parse_iterative p) s l w -> length l < fuel ->
    parse (Collect [] (fun c v => c ++ [v]) fuel p) s =
    match w with
    | Ended from _ => Ret (Ok (items l, None) from)
    | Failed from e _ => Ret (Ok (items l, Some e) from)
    | Crashed _ CPanic => Panic
    | Crashed _ CUB => UB
    | Crashed _ CFuel => OutOfFuel
    end.
  Proof. exact (@collect_vec _ _ _ _ LR St O E p s l w fuel). Qed.

  (** The same for any collection type, through its [default] and [extend]. *)
  Theorem C15_collect_any_collection {St O E C} (d : C) (ext : C -> O -> C) (p : diter St S O E) s l fuel :
    forward_iter reach (parse_iterative p) -> length l < fuel ->
    (forall from rest, run (parse_iterative p) s l (Ended from rest) ->
       parse (Collect d ext fuel p) s = Ret (Ok (fold_left ext (items l) d, None) from)) /\
    (forall from e loc, run (parse_iterative p) s l (Failed from e loc) ->
       parse (Collect d ext fuel p) s = Ret (Ok (fold_left ext (items l) d, Some e) from)).
  Proof. exact (@collect_any _ _ _ _ LR St O E C d ext p s l fuel). Qed.

  (** Nothing else: whenever collect returns, there was such a run. *)
  Theorem C15_collect_only_runs {St O E} (p : diter St S O E) s fuel :
    parse (Collect [] (fun c v => c ++ [v]) fuel p) s <> OutOfFuel ->
    exists l w, run (parse_iterative p) s l w /\ length l < fuel.
  Proof. apply collect_has_run. Qed.

  (** ** C16 *)
  Theorem C16_fold {St O E Acc} (f : Acc -> O -> Acc) (init : Acc) (p : diter St S O E) s l w fuel :
    run (parse_iterative p) s l w -> length l < fuel ->
    parse (Fold fuel p init f) s =
    match w with
    | Ended _ rest => Ret (Ok (fold_left f (items l) init) rest)
    | Failed _ e loc => Ret (Err e loc)
    | Crashed _ CPanic => Panic
    | Crashed _ CUB => UB
    | Crashed _ CFuel => OutOfFuel
    end.
  Proof. apply fold_exact. Qed.

  Theorem C16_fold_only_runs {St O E Acc} (f : Acc -> O -> Acc) (init : Acc) (p : diter St S O E) s fuel :
    parse (Fold fuel p init f) s <> OutOfFuel ->
    exists l w, run (parse_iterative p) s l w /\ length l < fuel.
  Proof. apply fold_has_run. Qed.

  (** ** C17 *)
  Theorem C17_map_each {St O E T} (f : O -> T) (p : diter St S O E) s us w :
    run (parse_iterative (MapEach p f)) s us w <->
    exists l, us = map_items f l /\ run (parse_iterative p) s l w.
  Proof. apply map_each_run. Qed.

  Theorem C17_map_each_compose {St O E T U} (f : O -> T) (g : T -> U) (p : diter St S O E) :
    same_calls (parse_iterative (MapEach (MapEach p f) g)) (parse_iterative (MapEach p (fun x => g (f x)))).
  Proof. apply map_each_compose. Qed.

  Theorem C17_scan {St O E T St2} (f : St2 -> O -> St2 * T) (i : St2) (p : diter St S O E) s us w :
    run (parse_iterative (Scan p i f)) s us w <->
    exists l, us = scanned f i l /\ run (parse_iterative p) s l w.
  Proof. apply scan_run. Qed.

  (** Either everything was accepted and the run stopped with [p], or the run
      ended right after the first item that [f] rejects. *)
  Theorem C17_map_while {St O E T} (f : O -> option T) (p : diter St S O E) s us w :
    let it := parse_iterative p in
    run (parse_iterative (MapWhile p f)) s us w <->
    (exists l, accepted f l us /\ run it s l w) \/
    (exists l v st from st' rest, accepted f l us /\ yields it (it_init it) s l st from /\
       it_next it st from = Ret (st', Ok (Some v) rest) /\ f v = None /\ w = Ended from rest).
  Proof. apply mw_run. Qed.

  Theorem C17_try_map_each {St O E T E'} `{ParseError E'} (from : E -> E') (f : O -> result T E')
    (p : diter St S O E) s us w :
    let it := parse_iterative p in
    let ok v := match f v with ROk t => Some t | RErr _ => None end in
    run (parse_iterative (TryMapEach from p f)) s us w <->
    (exists l w0, accepted ok l us /\ run it s l w0 /\
       w = match w0 with
           | Ended a b => Ended a b
           | Failed a e l => Failed a (from e) l
           | Crashed a k => Crashed a k
           end) \/
    (exists l v st at_ st' e rest, accepted ok l us /\ yields it (it_init it) s l st at_ /\
       it_next it st at_ = Ret (st', Ok (Some v) rest) /\ f v = RErr e /\
       w = if should_terminate e then Failed at_ e rest else Ended at_ rest).
  Proof. apply tm_run. Qed.

  (** The same for any sequence of calls, at any positions, also after an end or
      an error: each answer is the answer of [p] to the same calls, changed only as
      shown. *)
  Theorem C17_calls {St O E} (p : diter St S O E) ins :
    let it := parse_iterative p in
    (forall T (f : O -> T),
       calls (parse_iterative (MapEach p f)) (it_init (parse_iterative (MapEach p f))) ins
       = map (on_answer (fun v r => Ok (Some (f v)) r) (fun e => e)) (calls it (it_init it) ins)) /\
    (forall T (f : O -> option T),
       calls (parse_iterative (MapWhile p f)) (it_init (parse_iterative (MapWhile p f))) ins
       = map (on_answer (fun v r => Ok (f v) r) (fun e => e)) (calls it (it_init it) ins)) /\
    (forall T E' `(ParseError E') (from : E -> E') (f : O -> result T E'),
       calls (parse_iterative (TryMapEach from p f)) (it_init (parse_iterative (TryMapEach from p f))) ins
       = map (on_answer (fun v r => match f v with
                                    | ROk t => Ok (Some t) r
                                    | RErr e => if should_terminate e then Err e r else Ok None r
                                    end) from) (calls it (it_init it) ins)) /\
    (forall T St2 (i : St2) (f : St2 -> O -> St2 * T),
       calls (parse_iterative (Scan p i f)) (it_init (parse_iterative (Scan p i f))) ins
       = scan_answers f i (calls it (it_init it) ins)).
  Proof.
    split; [|split; [|split]]; intros;
      [apply map_each_calls|apply map_while_calls|apply try_map_each_calls|apply scan_calls].
  Qed.

  (** ** C18 *)
  Theorem C18_take {St O E} (n : nat) (p : diter St S O E) s l w :
    let it := parse_iterative p in
    run (parse_iterative (Take p n)) s l w <->
    (length l < n /\ run it s l w) \/
    (length l = n /\ exists st at_, yields it (it_init it) s l st at_ /\ w = Ended at_ at_).
  Proof. apply take_run. Qed.

  (** Once [n] items were produced, any further calls, at any positions, report
      the end there - whatever [p] would do. *)
  Theorem C18_take_exhausted {St O E} (n : nat) (p : diter St S O E) s l st at_ :
    let it := parse_iterative (Take p n) in
    yields it (it_init it) s l st at_ -> length l = n ->
    forall ins, calls it st ins = map (fun i => Answer (Ok None i)) ins.
  Proof. destruct st. apply take_exhausted. Qed.

  (** Any calls at any positions, also after [p] ended or failed: as long as fewer
      than [n] items came, the answers of [p] to the same calls. *)
  Theorem C18_calls {St O E} (n : nat) (p : diter St S O E) ins :
    0 < n ->
    calls (parse_iterative (Take p n)) (it_init (parse_iterative (Take p n))) ins
    = take_answers n ins (calls (parse_iterative p) (it_init (parse_iterative p)) ins).
  Proof. intros Hn. now apply take_calls. Qed.

  (** ** C19 *)
  (** Exact: fold leaves what the ending step left, collect where it started. *)
  Theorem C19_fold_collect_remainders {St O E Acc} (f : Acc -> O -> Acc) init (p : diter St S O E)
    s l from rest fuel :
    forward_iter reach (parse_iterative p) ->
    run (parse_iterative p) s l (Ended from rest) -> length l < fuel ->
    location_of (parse (Fold fuel p init f) s) = Some rest /\
    location_of (parse (Collect [] (fun c v => c ++ [v]) fuel p) s) = Some from.
  Proof. exact (@remainders _ _ _ _ LR St O E Acc f init p s l from rest fuel). Qed.

  (** So they agree for parsers whose ending step does not move, such as repeat. *)
  Theorem C19_same_remainder_partial {O E Acc} `{ParseError E} (p : dparser S O E) (f : Acc -> O -> Acc) init
    s l from rest fuel :
    forward reach (parse p) -> run (parse_iterative (RepeatIter p)) s l (Ended from rest) -> length l < fuel ->
    location_of (parse (Fold fuel (RepeatIter p) init f) s)
    = location_of (parse (Collect [] (fun c v => c ++ [v]) fuel (RepeatIter p)) s).
  Proof. exact (@repeat_same_remainder _ _ _ _ LR O E Acc _ p f init s l from rest fuel). Qed.

  (** ** C20 *)
  Theorem C20_optional_iterative {O E} `{ParseError E} (p : dparser S O E) s ins :
    forward reach (parse p) ->
    let it := parse_iterative (OptionalIter p) in
    let ends := map (fun i => Answer (Ok None i)) ins in
    (forall v r, parse p s = Ret (Ok v r) -> calls it (it_init it) (s :: ins) = Answer (Ok (Some v) r) :: ends) /\
    (forall e, behaves (parse p) s (Missed e) -> calls it (it_init it) (s :: ins) = Answer (Ok None s) :: ends) /\
    (forall e l, should_terminate e = true -> parse p s = Ret (Err e l) ->
       calls it (it_init it) (s :: ins) = Answer (Err e l) :: ends) /\
    (forall k, behaves (parse p) s (Crash k) -> calls it (it_init it) (s :: ins) = [Died k]).
  Proof. intros Hf. exact (optional_calls LR p Hf s ins). Qed.

  (** The items of repeat are the consecutive successes of [p], and it stops
      where [p] first does not succeed. *)
  Theorem C20_repeat_iterative {O E} `{ParseError E} (p : dparser S O E) s l w :
    forward reach (parse p) ->
    run (parse_iterative (RepeatIter p)) s l w <->
    exists r, many_at (behaves (parse p)) s l r /\
      match w with
      | Ended from rest => from = r /\ rest = r /\ exists e, behaves (parse p) r (Missed e)
      | Failed from e loc => from = r /\ behaves (parse p) r (Cut e) /\ parse p r = Ret (Err e loc)
      | Crashed from k => from = r /\ behaves (parse p) r (Crash k)
      end.
  Proof. intros Hf. exact (repeat_iter_run LR p Hf s l w). Qed.

  Theorem C20_repeat_collected {O E} `{ParseError E} (p : dparser S O E) fuel fuel' s vs e r :
    forward reach (parse p) ->
    parse (Repeat fuel p) s = Ret (Ok (vs, e) r) -> length vs < fuel' ->
    parse (Collect [] (fun c v => c ++ [v]) fuel' (RepeatIter p)) s = Ret (Ok (vs, None) r).
  Proof. intros Hf. exact (@repeat_collected _ _ _ _ LR O E _ p Hf fuel fuel' s vs e r). Qed.
End Props.

(** ** Witnesses and cases, over slices of numbers *)
Definition nums (l : list nat) : slice nat := Slice 1 0 l.
Definition digits : diter unit (slice nat) nat (Miss unit) := RepeatIter any_item.
Definition until_3 : diter unit (slice nat) nat (Miss unit) :=
  MapWhile digits (fun x => if x =? 3 then None else Some x).
(** Fails terminally at a 7, misses at the end. *)
Definition no_7 : dparser (slice nat) nat (Either (Miss unit) (Fatal nat)) :=
  AndThen First any_item (fun x => if x =? 7 then RErr (Last (MkFatal x)) else ROk x).

Theorem C14_collect_reports_fatal_refuted :
  exists (s : slice nat) vs r e loc,
    run (parse_iterative (RepeatIter no_7)) s vs (Failed r e loc) /\ should_terminate e = true /\
    parse (Collect [] (fun c v => c ++ [v]) 9 (RepeatIter no_7)) s = Ret (Ok ([1; 2], Some e) r).
Proof.
  exact (ex_intro _ (nums [1; 2; 7; 3]) (ex_intro _ [(1, Slice 1 1 [2; 7; 3]); (2, Slice 1 2 [7; 3])]
    (ex_intro _ (Slice 1 2 [7; 3]) (ex_intro _ (Last (MkFatal 7)) (ex_intro _ (Slice 1 3 [3]) C14_witness))))).
Qed.

Theorem C19_same_remainder_refuted :
  exists s l from rest,
    run (parse_iterative until_3) s l (Ended from rest) /\
    location_of (parse (Fold 9 until_3 0 Nat.add) s)
    <> location_of (parse (Collect [] (fun c v => c ++ [v]) 9 until_3) s).
Proof.
  exact (ex_intro _ (nums [1; 3; 5]) (ex_intro _ [(1, Slice 1 1 [3; 5])]
    (ex_intro _ (Slice 1 1 [3; 5]) (ex_intro _ (Slice 1 2 [5]) C19_witness)))).
Qed.

Example C15_case :
  parse (Collect [] (fun c v => c ++ [v]) 9 digits) (nums [4; 5]) = Ret (Ok ([4; 5], None) (Slice 1 2 [])) /\
  run (parse_iterative digits) (nums [4; 5]) [(4, Slice 1 1 [5]); (5, Slice 1 2 [])] (Ended (Slice 1 2 []) (Slice 1 2 [])) /\
  forward (@later_slice nat) (parse any_item).
Proof.
  split; [reflexivity|]. split; [|apply any_item_forward_slice].
  exists tt, (Slice 1 2 []). split; [|split; [reflexivity|]; exists tt; reflexivity].
  econstructor; [reflexivity|]. econstructor; [reflexivity|]. constructor.
Qed.
Example C16_case : parse (Fold 9 digits 100 Nat.sub) (nums [4; 5]) = Ret (Ok 91 (Slice 1 2 [])).
Proof. reflexivity. Qed.
Example C17_case :
  run (parse_iterative (Scan digits 10 (fun a x => (a + x, a * x)))) (nums [4; 5])
    [(40, Slice 1 1 [5]); (70, Slice 1 2 [])] (Ended (Slice 1 2 []) (Slice 1 2 [])) /\
  run (parse_iterative until_3) (nums [1; 3; 5]) [(1, Slice 1 1 [3; 5])]
    (Ended (Slice 1 1 [3; 5]) (Slice 1 2 [5])).
Proof.
  split.
  - exists (tt, 19), (Slice 1 2 []). split; [|split; [reflexivity|]; exists (tt, 19); reflexivity].
    econstructor; [reflexivity|]. econstructor; [reflexivity|]. constructor.
  - exists tt, (Slice 1 1 [3; 5]). split; [|split; [reflexivity|]; exists tt; reflexivity].
    econstructor; [reflexivity|]. constructor.
Qed.
Example C18_case :
  yields (parse_iterative (Take digits 2)) (tt, 2) (nums [4; 5; 6])
    [(4, Slice 1 1 [5; 6]); (5, Slice 1 2 [6])] (tt, 0) (Slice 1 2 [6]).
Proof. econstructor; [reflexivity|]. econstructor; [reflexivity|]. constructor. Qed.
(** A miss in between does not count. *)
Example C18_case_calls :
  calls (parse_iterative (Take (OptionalIter (any_item (T := nat))) 2)) (true, 2) [nums [4]; nums [5]; nums [6]]
  = [Answer (Ok (Some 4) (Slice 1 1 [])); Answer (Ok None (nums [5])); Answer (Ok None (nums [6]))].
Proof. reflexivity. Qed.
Example C20_case :
  parse (Repeat 9 (the_item Nat.eqb 1)) (nums [1; 1; 2]) = Ret (Ok ([tt; tt], MkMiss tt) (Slice 1 2 [2])) /\
  forward (@later_slice nat) (parse (the_item Nat.eqb 1)).
Proof. split; [reflexivity|apply the_item_forward_slice]. Qed.

Print Assumptions C06_iterative_once_is_iterative.
Print Assumptions C14_collect_never_fails.
Print Assumptions C14_collect_reports_fatal_refuted.
Print Assumptions C15_collect.
Print Assumptions C15_collect_any_collection.
Print Assumptions C15_collect_only_runs.
Print Assumptions C16_fold.
Print Assumptions C16_fold_only_runs.
Print Assumptions C17_map_each.
Print Assumptions C17_map_each_compose.
Print Assumptions C17_scan.
Print Assumptions C17_map_while.
Print Assumptions C17_try_map_each.
Print Assumptions C17_calls.
Print Assumptions C18_calls.
Print Assumptions C18_take.
Print Assumptions C18_take_exhausted.
Print Assumptions C19_fold_collect_remainders.
Print Assumptions C19_same_remainder_partial.
Print Assumptions C19_same_remainder_refuted.
Print Assumptions C20_optional_iterative.
Print Assumptions C20_repeat_iterative.
Print Assumptions C20_repeat_collected.
