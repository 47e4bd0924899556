(** * M_LiveFold: iterating on the runner's sequence while loaders run:
    crates/parcom-parsers/src/iterative/fold.rs, map_each.rs, map_while.rs,
    try_map_each.rs, scan.rs and take.rs over the parsers of M_LiveJoin.  Model
    only; no proofs.
    [Repeat], [Optional] and [Collect] ask for a [RewindSequence], which
    [DefaultSequence] is not; what is iterated on it is an iterative parser of
    the user's own (crates/parcom-core/src/parser.rs:37-61), whose [parse_next]
    is an async function that may change its state. *)
From Verif Require Export M_LiveJoin M_Iter.

Set Implicit Arguments.

Section LiveFold.
  Context {T : Type} (eqb : T -> T -> bool).

  (** crates/parcom-core/src/parser.rs:37-45: the first state and [parse_next];
      the new state is handed back next to the output or error. *)
  Record live_iter (St O E : Type) := LI {
    li_init : St;
    li_next : St -> lparser T (option O * St) (E * St)
  }.

  (** crates/parcom-parsers/src/iterative/map_each.rs:21-76 *)
  Definition LMapEach {St O E V} (it : live_iter St O E) (map : O -> V) : live_iter St V E :=
    LI (li_init it) (fun st => PMap (li_next it st) (fun '(v, st') => (option_map map v, st'))).

  (** crates/parcom-parsers/src/iterative/map_while.rs:23-83 *)
  Definition LMapWhile {St O E V} (it : live_iter St O E) (f : O -> option V) : live_iter St V E :=
    LI (li_init it) (fun st => PMap (li_next it st) (fun '(v, st') => (match v with Some v => f v | None => None end, st'))).

  (** crates/parcom-parsers/src/iterative/try_map_each.rs:35-112 *)
  Definition LTryMapEach {St O E V E'} `{ParseError E'} (from : E -> E') (it : live_iter St O E) (f : O -> result V E')
    : live_iter St V E' :=
    LI (li_init it) (fun st => PAndThen (fun '(e, st') => (from e, st')) (li_next it st) (fun '(v, st') =>
      match v with
      | Some v => match f v with
                  | ROk v => ROk (Some v, st')
                  | RErr e => if should_terminate e then RErr (e, st') else ROk (None, st')
                  end
      | None => ROk (None, st')
      end)).

  (** crates/parcom-parsers/src/iterative/scan.rs:34-105 *)
  Definition LScan {St O E V St2} (it : live_iter St O E) (initial_state : St2) (f : St2 -> O -> St2 * V)
    : live_iter (St * St2) V E :=
    LI (li_init it, initial_state) (fun '(pst, st) =>
      PMapErr (PMap (li_next it pst) (fun '(v, pst') =>
                 match v with
                 | Some v => let '(st', o) := f st v in (Some o, (pst', st'))
                 | None => (None, (pst', st))
                 end))
              (fun '(e, pst') => (e, (pst', st)))).

  (** crates/parcom-parsers/src/iterative/take.rs:23-76 *)
  Definition LTake {St O E} (it : live_iter St O E) (count : nat) : live_iter (St * nat) O E :=
    LI (li_init it, count) (fun '(st, lft) =>
      if lft =? 0 then PDone (None, (st, lft))
      else PMapErr (PMap (li_next it st) (fun '(v, st') =>
                      match v with
                      | Some v => (Some v, (st', lft - 1))
                      | None => (None, (st', lft))
                      end))
                   (fun '(e, st') => (e, (st', lft)))).

  Section Fold.
    Variable modulus : nat.
    Context {St O E Acc : Type} (it : live_iter St O E) (f : Acc -> O -> Acc).

    (** crates/parcom-parsers/src/iterative/fold.rs:74-91: the loop, with state
        [st] and accumulator [acc], on the sequence over [b]; the events meanwhile,
        newest first, and the answer. *)
    Inductive folds : St -> Acc -> @shared T -> gbuffer -> list (@revent T) -> @outcome T Acc E -> Prop :=
    | fo_more st acc x b h0 v st' x0 b0 h1 r :
        runs eqb modulus (li_next it st) x b h0 (Took (Some v, st') x0 b0) ->
        folds st' (f acc v) x0 b0 h1 r -> folds st acc x b (h1 ++ h0) r
    | fo_stop st acc x b h st' x0 b0 :
        runs eqb modulus (li_next it st) x b h (Took (None, st') x0 b0) -> folds st acc x b h (Took acc x0 b0)
    | fo_fails st acc x b h e st' x0 b0 :
        runs eqb modulus (li_next it st) x b h (Failed (e, st') x0 b0) -> folds st acc x b h (Failed e x0 b0).

    (** The sequences on which it starts primitive parsers. *)
    Inductive fold_starts : St -> Acc -> @shared T -> gbuffer -> @shared T -> gbuffer -> Prop :=
    | fs_here st acc x b x' b' : starts eqb modulus (li_next it st) x b x' b' -> fold_starts st acc x b x' b'
    | fs_more st acc x b h v st' x0 b0 x' b' :
        runs eqb modulus (li_next it st) x b h (Took (Some v, st') x0 b0) ->
        fold_starts st' (f acc v) x0 b0 x' b' -> fold_starts st acc x b x' b'.
  End Fold.
End LiveFold.
Arguments live_iter T St O E : clear implicits.
Arguments LI {T St O E} _ _.
