(** * M_Iter: iterative parsers, crates/parcom-parsers/src/iterative/*.rs and
    the iterative sides of [Optional] and [Repeat].  Model only; no proofs. *)
From Verif Require Export M_Base M_Comb.

Set Implicit Arguments.

(** One iteration session: initial state and
    [IterativeParserState::parse_next] (crates/parcom-core/src/parser.rs:37-45).
    [&mut self] is threaded: the new state is returned next to the result. *)
Record iter (St S O E : Type) : Type := IT {
  it_init : St;
  it_next : St -> S -> comp (St * res S (option O) E)
}.
Arguments IT {St S O E} _ _.

(** crates/parcom-core/src/parser.rs:47-61: [IterativeParser::parse_iterative]
    and [IterativeParserOnce::parse_iterative_once]. *)
Record diter (St S O E : Type) : Type := DI {
  parse_iterative : iter St S O E;
  parse_iterative_once : iter St S O E
}.
Arguments DI {St S O E} _ _.

(** crates/parcom-core/src/parser.rs:63-81: [&P] is an iterative parser; both
    bodies start a borrowed session of [P]. *)
Definition IterRef {St S O E} (p : diter St S O E) : diter St S O E :=
  DI (parse_iterative p) (parse_iterative p).

Section Iterative.
  Context {S A : Type} {RS : RewindSequence S A}.

  (** ** Optional as an iterative parser; the state is [me.is_some()]. *)
  Section OptionalIter.
    Context {O E : Type} `{ParseError E}.

    (** crates/parcom-parsers/src/combinator/optional.rs:98-117 *)
    Definition optional_next (parser : dparser S O E) (me : bool) (input : S)
      : comp (bool * res S (option O) E) :=
      if negb me then Ret (false, Ok None input)
      else
        let me' := false in
        let anc := anchor input in
        r <- parse parser input ;;
        match r with
        | Ok v r => Ret (me', Ok (Some v) r)
        | Err e r =>
            if should_terminate e then Ret (me', Err e r)
            else r' <- rewind r anc ;; Ret (me', Ok None r')
        end.

    (** crates/parcom-parsers/src/combinator/optional.rs:72-91 *)
    Definition optional_next_once (parser : dparser S O E) (me : bool) (input : S)
      : comp (bool * res S (option O) E) :=
      if negb me then Ret (false, Ok None input)
      else
        let me' := false in
        let anc := anchor input in
        r <- parse_once parser input ;;
        match r with
        | Ok v r => Ret (me', Ok (Some v) r)
        | Err e r =>
            if should_terminate e then Ret (me', Err e r)
            else r' <- rewind r anc ;; Ret (me', Ok None r')
        end.

    (** crates/parcom-parsers/src/combinator/optional.rs:47-65 *)
    Definition OptionalIter (p : dparser S O E) : diter bool S O E :=
      DI (IT true (optional_next p)) (IT true (optional_next_once p)).
  End OptionalIter.

  (** ** Repeat as an iterative parser; it has no mutable state. *)
  Section RepeatIter.
    Context {O E : Type} `{ParseError E}.

    (** crates/parcom-parsers/src/combinator/repeat.rs:93-110 *)
    Definition repeat_next (parser : dparser S O E) (_ : unit) (input : S)
      : comp (unit * res S (option O) E) :=
      let anc := anchor input in
      r <- parse parser input ;;
      match r with
      | Ok v r => Ret (tt, Ok (Some v) r)
      | Err e r =>
          if should_terminate e then Ret (tt, Err e r)
          else r' <- rewind r anc ;; Ret (tt, Ok None r')
      end.

    (** crates/parcom-parsers/src/combinator/repeat.rs:61-85: the borrowed
        session wraps the parser in a [Ref]. *)
    Definition RepeatIter (p : dparser S O E) : diter unit S O E :=
      DI (IT tt (repeat_next (Ref p))) (IT tt (repeat_next p)).
  End RepeatIter.

  (** ** map_each *)
  Section MapEach.
    Context {St O E T : Type}.

    (** crates/parcom-parsers/src/iterative/map_each.rs:61-76 *)
    Definition map_each_next (it : iter St S O E) (map : O -> T) (state : St) (input : S)
      : comp (St * res S (option T) E) :=
      '(state', r) <- it_next it state input ;;
      match r with
      | Ok v r => Ret (state', Ok (option_map map v) r)
      | Err e r => Ret (state', Err e r)
      end.

    (** crates/parcom-parsers/src/iterative/map_each.rs:21-52 *)
    Definition MapEach (p : diter St S O E) (f : O -> T) : diter St S T E :=
      DI (IT (it_init (parse_iterative p)) (map_each_next (parse_iterative p) f))
         (IT (it_init (parse_iterative_once p)) (map_each_next (parse_iterative_once p) f)).
  End MapEach.

  (** ** map_while *)
  Section MapWhile.
    Context {St O E T : Type}.

    (** crates/parcom-parsers/src/iterative/map_while.rs:68-83 *)
    Definition map_while_next (it : iter St S O E) (f : O -> option T) (state : St) (input : S)
      : comp (St * res S (option T) E) :=
      '(state', r) <- it_next it state input ;;
      match r with
      | Ok v r => Ret (state', Ok (match v with Some x => f x | None => None end) r)
      | Err e r => Ret (state', Err e r)
      end.

    (** crates/parcom-parsers/src/iterative/map_while.rs:23-60 *)
    Definition MapWhile (p : diter St S O E) (f : O -> option T) : diter St S T E :=
      DI (IT (it_init (parse_iterative p)) (map_while_next (parse_iterative p) f))
         (IT (it_init (parse_iterative_once p)) (map_while_next (parse_iterative_once p) f)).
  End MapWhile.

  (** ** try_map_each *)
  Section TryMapEach.
    (** [from] is [E: From<P::Error>]. *)
    Context {St O E T E' : Type} `{ParseError E'} (from : E -> E').

    (** crates/parcom-parsers/src/iterative/try_map_each.rs:86-112 *)
    Definition try_map_each_next (it : iter St S O E) (f : O -> result T E')
      (state : St) (input : S) : comp (St * res S (option T) E') :=
      '(state', r) <- it_next it state input ;;
      match r with
      | Ok (Some v) r =>
          match f v with
          | ROk v => Ret (state', Ok (Some v) r)
          | RErr e =>
              if should_terminate e then Ret (state', Err e r)
              else Ret (state', Ok None r)
          end
      | Ok None r => Ret (state', Ok None r)
      | Err e r => Ret (state', Err (from e) r)
      end.

    (** crates/parcom-parsers/src/iterative/try_map_each.rs:35-74 *)
    Definition TryMapEach (p : diter St S O E) (f : O -> result T E') : diter St S T E' :=
      DI (IT (it_init (parse_iterative p)) (try_map_each_next (parse_iterative p) f))
         (IT (it_init (parse_iterative_once p)) (try_map_each_next (parse_iterative_once p) f)).
  End TryMapEach.

  (** ** scan; [f : Fn(&mut St, O) -> T] returns the new state and the output. *)
  Section Scan.
    Context {St O E T St2 : Type}.

    (** crates/parcom-parsers/src/iterative/scan.rs:87-105 *)
    Definition scan_next (it : iter St S O E) (f : St2 -> O -> St2 * T)
      (state : St * St2) (input : S) : comp ((St * St2) * res S (option T) E) :=
      let '(pst, st) := state in
      '(pst', r) <- it_next it pst input ;;
      match r with
      | Err e r => Ret ((pst', st), Err e r)
      | Ok (Some v) r =>
          let '(st', o) := f st v in
          Ret ((pst', st'), Ok (Some o) r)
      | Ok None r => Ret ((pst', st), Ok None r)
      end.

    (** crates/parcom-parsers/src/iterative/scan.rs:34-74 *)
    Definition Scan (p : diter St S O E) (initial_state : St2) (f : St2 -> O -> St2 * T)
      : diter (St * St2) S T E :=
      DI (IT (it_init (parse_iterative p), initial_state) (scan_next (parse_iterative p) f))
         (IT (it_init (parse_iterative_once p), initial_state) (scan_next (parse_iterative_once p) f)).
  End Scan.

  (** ** take; the state is the underlying state and [left]. *)
  Section Take.
    Context {St O E : Type}.

    (** crates/parcom-parsers/src/iterative/take.rs:59-76 *)
    Definition take_next (it : iter St S O E) (state : St * nat) (input : S)
      : comp ((St * nat) * res S (option O) E) :=
      let '(st, lft) := state in
      if lft =? 0 then Ret ((st, lft), Ok None input)
      else
        '(st', r) <- it_next it st input ;;
        match r with
        | Err e r => Ret ((st', lft), Err e r)
        | Ok (Some v) r => Ret ((st', lft - 1), Ok (Some v) r)
        | Ok None r => Ret ((st', lft), Ok None r)
        end.

    (** crates/parcom-parsers/src/iterative/take.rs:23-50 *)
    Definition Take (p : diter St S O E) (count : nat) : diter (St * nat) S O E :=
      DI (IT (it_init (parse_iterative p), count) (take_next (parse_iterative p)))
         (IT (it_init (parse_iterative_once p), count) (take_next (parse_iterative_once p))).
  End Take.

  (** ** fold *)
  Section Fold.
    Context {St O E Acc : Type}.

    (** The [loop] of crates/parcom-parsers/src/iterative/fold.rs:74-91, one
        unit of fuel per iteration. *)
    Fixpoint fold_loop (fuel : nat) (it : iter St S O E) (f : Acc -> O -> Acc)
      (state : St) (acc : Acc) (rest : S) : comp (res S Acc E) :=
      match fuel with
      | 0 => OutOfFuel
      | Datatypes.S fuel' =>
          '(state', r) <- it_next it state rest ;;
          match r with
          | Err e r => Ret (Err e r)
          | Ok (Some v) r => fold_loop fuel' it f state' (f acc v) r
          | Ok None r => done acc r
          end
      end.

    (** crates/parcom-parsers/src/iterative/fold.rs:37-72 *)
    Definition Fold (fuel : nat) (p : diter St S O E) (init : Acc) (f : Acc -> O -> Acc)
      : dparser S Acc E :=
      DP (fun input => fold_loop fuel (parse_iterative p) f (it_init (parse_iterative p)) init input)
         (fun input => fold_loop fuel (parse_iterative_once p) f (it_init (parse_iterative_once p)) init input).
  End Fold.

  (** ** collect; [C: Extend<O> + Default] is given by [cdefault], [cextend]
      ([collection.extend(once(v))]). *)
  Section Collect.
    Context {St O E C : Type} (cdefault : C) (cextend : C -> O -> C).

    (** The [loop] of crates/parcom-parsers/src/iterative/collect.rs:43-65. *)
    Fixpoint collect_loop (fuel : nat) (it : iter St S O E) (state : St)
      (collection : C) (rest : S) : comp (res S (C * option E) E) :=
      match fuel with
      | 0 => OutOfFuel
      | Datatypes.S fuel' =>
          let anc := anchor rest in
          '(state', r) <- it_next it state rest ;;
          match r with
          | Ok None r => r' <- rewind r anc ;; done (collection, None) r'
          | Ok (Some v) r => collect_loop fuel' it state' (cextend collection v) r
          | Err e r => r' <- rewind r anc ;; done (collection, Some e) r'
          end
      end.

    (** crates/parcom-parsers/src/iterative/collect.rs:24-41 *)
    Definition Collect (fuel : nat) (p : diter St S O E) : dparser S (C * option E) E :=
      DP (fun input => collect_loop fuel (parse_iterative p) (it_init (parse_iterative p)) cdefault input)
         (fun input => collect_loop fuel (parse_iterative_once p) (it_init (parse_iterative_once p)) cdefault input).
  End Collect.
End Iterative.
