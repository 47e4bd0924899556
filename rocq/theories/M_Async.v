(** * M_Async: the combinators once more, with futures that may be pending.
    Model only; no proofs.

    The bodies are those of M_Comb.v, M_Iter.v and M_BinExpr.v (the same lines of
    the same files), with every [.await] written as one: a future is a [task], and
    [x <~ t ;; k] polls [t] until it is ready, passing each [Pending] on to its own
    caller, and then goes on with [k].  This is what the compiler makes of
    [async] blocks (Rust reference, "await expressions").  The executor polls again
    some time after a [Pending]; a future that is pending for ever has no result
    and is not modelled. *)
From Verif Require Export M_Base M_Comb M_Iter M_BinExpr.

Set Implicit Arguments.

(** A future: ready now, or pending at this poll. *)
Inductive task (X : Type) : Type :=
| Now (x : comp X)
| Later (t : task X).
Arguments Now {X} _.
Arguments Later {X} _.

Fixpoint tbind {X Y : Type} (t : task X) (k : X -> task Y) : task Y :=
  match t with
  | Now (Ret x) => k x
  | Now Panic => Now Panic
  | Now UB => Now UB
  | Now OutOfFuel => Now OutOfFuel
  | Later t' => Later (tbind t' k)
  end.

Notation "x <~ m ;; k" := (tbind m (fun x => k))
  (at level 61, m at next level, right associativity) : comp_scope.
Notation "' p <~ m ;; k" := (tbind m (fun p => k))
  (at level 61, p pattern, m at next level, right associativity) : comp_scope.

Definition tret {X} (x : X) : task X := Now (Ret x).

(** crates/parcom-core/src/sequence.rs:29-35, with a [rewind] that may wait. *)
Class ARewindSequence (S A : Type) : Type := {
  a_anchor : S -> A;
  a_rewind : S -> A -> task S
}.

(** crates/parcom-core/src/parser.rs:5-35 *)
Definition apfun (S O E : Type) : Type := S -> task (res S O E).
Record aparser (S O E : Type) : Type := AP {
  aparse : apfun S O E;
  aparse_once : apfun S O E
}.
Arguments AP {S O E} _ _.

(** crates/parcom-util/src/lib.rs:11-20 *)
Definition adone {S O E : Type} (output : O) (rest : S) : task (res S O E) := tret (Ok output rest).
Definition afail {S O E : Type} (err : E) (rest : S) : task (res S O E) := tret (Err err rest).

(** crates/parcom-core/src/parser.rs:37-61 *)
Record aiter (St S O E : Type) : Type := AIT {
  ait_init : St;
  ait_next : St -> S -> task (St * res S (option O) E)
}.
Arguments AIT {St S O E} _ _.
Record aditer (St S O E : Type) : Type := ADI {
  aparse_iterative : aiter St S O E;
  aparse_iterative_once : aiter St S O E
}.
Arguments ADI {St S O E} _ _.

Section ACombinators.
  (** The sequence type and its anchor type. *)
  Context {S A : Type} {RS : ARewindSequence S A}.

  (** ** or *)
  Section AOr.
    Context {O0 E0 O1 E1 : Type} `{ParseError E0} `{ParseError E1}.

    (** crates/parcom-parsers/src/combinator/or.rs:46-66 *)
    Definition aor_parse (parser0 : aparser S O0 E0) (parser1 : aparser S O1 E1)
      : apfun S (Either O0 O1) (EitherBoth E0 E1) :=
      fun input =>
        let anc := a_anchor input in
        r0 <~ aparse parser0 input ;;
        match r0 with
        | Ok v r => adone (First v) r
        | Err e r =>
            if negb (should_terminate e) then
              let err0 := e in
              input' <~ a_rewind r anc ;;
              r1 <~ aparse parser1 input' ;;
              match r1 with
              | Ok v r => adone (Last v) r
              | Err e r =>
                  if negb (should_terminate e)
                  then afail (BBoth err0 e) r
                  else afail (BLast e) r
              end
            else afail (BFirst e) r
        end.

    (** crates/parcom-parsers/src/combinator/or.rs:22-44 *)
    Definition aor_parse_once (parser0 : aparser S O0 E0) (parser1 : aparser S O1 E1)
      : apfun S (Either O0 O1) (EitherBoth E0 E1) :=
      fun input =>
        let anc := a_anchor input in
        r0 <~ aparse_once parser0 input ;;
        match r0 with
        | Ok v r => adone (First v) r
        | Err e r =>
            if negb (should_terminate e) then
              let err0 := e in
              input' <~ a_rewind r anc ;;
              r1 <~ aparse_once parser1 input' ;;
              match r1 with
              | Ok v r => adone (Last v) r
              | Err e r =>
                  if negb (should_terminate e)
                  then afail (BBoth err0 e) r
                  else afail (BLast e) r
              end
            else afail (BFirst e) r
        end.

    (** crates/parcom-parsers/src/combinator/or.rs:5-20 [Or::new],
        crates/parcom-parsers/src/extension/parser.rs:14-20 *)
    Definition AOr (p0 : aparser S O0 E0) (p1 : aparser S O1 E1) :=
      AP (aor_parse p0 p1) (aor_parse_once p0 p1).
  End AOr.

  (** ** join *)
  Section AJoin.
    Context {O0 E0 O1 E1 : Type}.

    (** crates/parcom-parsers/src/combinator/join.rs:43-58 *)
    Definition ajoin_parse (parser0 : aparser S O0 E0) (parser1 : aparser S O1 E1)
      : apfun S (O0 * O1) (Either E0 E1) :=
      fun input =>
        r0 <~ aparse parser0 input ;;
        match r0 with
        | Err e r => afail (First e) r
        | Ok item0 rest =>
            r1 <~ aparse parser1 rest ;;
            match r1 with
            | Err e r => afail (Last e) r
            | Ok item1 rest => adone (item0, item1) rest
            end
        end.

    (** crates/parcom-parsers/src/combinator/join.rs:22-41 *)
    Definition ajoin_parse_once (parser0 : aparser S O0 E0) (parser1 : aparser S O1 E1)
      : apfun S (O0 * O1) (Either E0 E1) :=
      fun input =>
        r0 <~ aparse_once parser0 input ;;
        match r0 with
        | Err e r => afail (First e) r
        | Ok item0 rest =>
            r1 <~ aparse_once parser1 rest ;;
            match r1 with
            | Err e r => afail (Last e) r
            | Ok item1 rest => adone (item0, item1) rest
            end
        end.

    (** crates/parcom-parsers/src/extension/parser.rs:22-28 *)
    Definition AJoin (p0 : aparser S O0 E0) (p1 : aparser S O1 E1) :=
      AP (ajoin_parse p0 p1) (ajoin_parse_once p0 p1).
  End AJoin.

  (** ** map, map_err *)
  Section AMap.
    Context {O E U : Type}.

    (** crates/parcom-parsers/src/combinator/map.rs:34-41 *)
    Definition amap_parse (parser : aparser S O E) (mapping : O -> U) : apfun S U E :=
      fun input =>
        r <~ aparse parser input ;;
        match r with
        | Ok v r => tret (Ok (mapping v) r)
        | Err e r => tret (Err e r)
        end.

    (** crates/parcom-parsers/src/combinator/map.rs:21-33 *)
    Definition amap_parse_once (parser : aparser S O E) (mapping : O -> U) : apfun S U E :=
      fun input =>
        r <~ aparse_once parser input ;;
        match r with
        | Ok v r => tret (Ok (mapping v) r)
        | Err e r => tret (Err e r)
        end.

    (** crates/parcom-parsers/src/extension/parser.rs:30-35 *)
    Definition AMap (p : aparser S O E) (f : O -> U) :=
      AP (amap_parse p f) (amap_parse_once p f).

    (** crates/parcom-parsers/src/combinator/map.rs:74-83 *)
    Definition amap_err_parse (parser : aparser S O E) (mapping : E -> U) : apfun S O U :=
      fun input =>
        r <~ aparse parser input ;;
        match r with
        | Ok v r => tret (Ok v r)
        | Err e r => tret (Err (mapping e) r)
        end.

    (** crates/parcom-parsers/src/combinator/map.rs:60-72 *)
    Definition amap_err_parse_once (parser : aparser S O E) (mapping : E -> U) : apfun S O U :=
      fun input =>
        r <~ aparse_once parser input ;;
        match r with
        | Ok v r => tret (Ok v r)
        | Err e r => tret (Err (mapping e) r)
        end.

    (** crates/parcom-parsers/src/extension/parser.rs:37-42 *)
    Definition AMapErr (p : aparser S O E) (f : E -> U) :=
      AP (amap_err_parse p f) (amap_err_parse_once p f).
  End AMap.

  (** ** and_then *)
  Section AndThen.
    (** [from] is [E: From<P::Error>]. *)
    Context {O E O' E' : Type} (from : E -> E').

    (** crates/parcom-parsers/src/combinator/and_then.rs:57-75 *)
    Definition aand_then_parse (parser : aparser S O E) (f : O -> result O' E')
      : apfun S O' E' :=
      fun input =>
        r <~ aparse parser input ;;
        match r with
        | Err e r => afail (from e) r
        | Ok v r =>
            match f v with
            | ROk v => adone v r
            | RErr e => afail e r
            end
        end.

    (** crates/parcom-parsers/src/combinator/and_then.rs:34-55 *)
    Definition aand_then_parse_once (parser : aparser S O E) (f : O -> result O' E')
      : apfun S O' E' :=
      fun input =>
        r <~ aparse_once parser input ;;
        match r with
        | Err e r => afail (from e) r
        | Ok v r =>
            match f v with
            | ROk v => adone v r
            | RErr e => afail e r
            end
        end.

    (** crates/parcom-parsers/src/extension/parser.rs:77-84 *)
    Definition AAndThen (p : aparser S O E) (f : O -> result O' E') :=
      AP (aand_then_parse p f) (aand_then_parse_once p f).
  End AndThen.

  (** ** unify, unify_err *)
  Section AUnify.
    Context {O E T0 T1 T : Type} (into0 : T0 -> T) (into1 : T1 -> T).

    (** crates/parcom-parsers/src/combinator/unify.rs:50-62 *)
    Definition aunify_parse (parser : aparser S (Either T0 T1) E) : apfun S T E :=
      fun input =>
        r <~ aparse parser input ;;
        match r with
        | Err e r => tret (Err e r)
        | Ok e r => adone (either_unify into0 into1 e) r
        end.

    (** crates/parcom-parsers/src/combinator/unify.rs:32-48 *)
    Definition aunify_parse_once (parser : aparser S (Either T0 T1) E) : apfun S T E :=
      fun input =>
        r <~ aparse_once parser input ;;
        match r with
        | Err e r => tret (Err e r)
        | Ok (First v) r => adone (into0 v) r
        | Ok (Last v) r => adone (into1 v) r
        end.

    (** crates/parcom-parsers/src/extension/parser.rs:51-58 *)
    Definition AUnify (p : aparser S (Either T0 T1) E) :=
      AP (aunify_parse p) (aunify_parse_once p).

    (** crates/parcom-parsers/src/combinator/unify.rs:112-126 *)
    Definition aunify_err_parse (parser : aparser S O (Either T0 T1)) : apfun S O T :=
      fun input =>
        r <~ aparse parser input ;;
        match r with
        | Ok v r => tret (Ok v r)
        | Err e r => tret (Err (either_unify into0 into1 e) r)
        end.

    (** crates/parcom-parsers/src/combinator/unify.rs:90-110 *)
    Definition aunify_err_parse_once (parser : aparser S O (Either T0 T1)) : apfun S O T :=
      fun input =>
        r <~ aparse_once parser input ;;
        match r with
        | Ok v r => tret (Ok v r)
        | Err (First e) r => tret (Err (into0 e) r)
        | Err (Last e) r => tret (Err (into1 e) r)
        end.

    (** crates/parcom-parsers/src/extension/parser.rs:60-67 *)
    Definition AUnifyErr (p : aparser S O (Either T0 T1)) :=
      AP (aunify_err_parse p) (aunify_err_parse_once p).
  End AUnify.

  (** ** as_ref, boxed *)
  Section ARef.
    Context {O E : Type}.

    (** crates/parcom-parsers/src/combinator/reference.rs:29-41:
        [parse] calls the referenced parser's [parse]; [parse_once] calls
        [parse] of the reference. *)
    Definition aref_parse (parser : aparser S O E) : apfun S O E :=
      fun input => aparse parser input.
    Definition ARef (p : aparser S O E) := AP (aref_parse p) (fun input => aref_parse p input).

    (** crates/parcom-parsers/src/util.rs:18-39; boxing the future has no
        effect on its value. *)
    Definition aboxed_parse (parser : aparser S O E) : apfun S O E :=
      fun input => aparse parser input.
    Definition aboxed_parse_once (parser : aparser S O E) : apfun S O E :=
      fun input => aparse_once parser input.
    Definition ABoxed (p : aparser S O E) := AP (aboxed_parse p) (aboxed_parse_once p).
  End ARef.

  (** ** optional *)
  Section AOptional.
    Context {O E : Type} `{ParseError E}.

    (** crates/parcom-parsers/src/combinator/optional.rs:36-45 *)
    Definition aoptional_parse (parser : aparser S O E) : apfun S (result O E) E :=
      fun input =>
        let anc := a_anchor input in
        r <~ aparse parser input ;;
        match r with
        | Ok v r => adone (ROk v) r
        | Err e r =>
            if negb (should_terminate e) then
              r' <~ a_rewind r anc ;;
              adone (RErr e) r'
            else afail e r
        end.

    (** crates/parcom-parsers/src/combinator/optional.rs:22-34 *)
    Definition aoptional_parse_once (parser : aparser S O E) : apfun S (result O E) E :=
      fun input =>
        let anc := a_anchor input in
        r <~ aparse_once parser input ;;
        match r with
        | Ok v r => adone (ROk v) r
        | Err e r =>
            if negb (should_terminate e) then
              r' <~ a_rewind r anc ;;
              adone (RErr e) r'
            else afail e r
        end.

    (** crates/parcom-parsers/src/extension/parser.rs:6-12 *)
    Definition AOptional (p : aparser S O E) :=
      AP (aoptional_parse p) (aoptional_parse_once p).
  End AOptional.

  (** ** repeat *)
  Section ARepeat.
    Context {O E : Type} `{ParseError E}.

    (** The [loop] of crates/parcom-parsers/src/combinator/repeat.rs:39-57,
        one unit of fuel per iteration; [buf] is the [Vec], oldest first. *)
    Fixpoint arepeat_loop (fuel : nat) (parser : aparser S O E) (buf : list O) (rest : S)
      : task (res S (list O * E) E) :=
      match fuel with
      | 0 => Now OutOfFuel
      | Datatypes.S fuel' =>
          let anc := a_anchor rest in
          r <~ aparse parser rest ;;
          match r with
          | Ok v r => arepeat_loop fuel' parser (buf ++ [v]) r
          | Err e r =>
              if should_terminate e then afail e r
              else
                rest' <~ a_rewind r anc ;;
                adone (buf, e) rest'
          end
      end.

    (** crates/parcom-parsers/src/combinator/repeat.rs:34-59 *)
    Definition arepeat_parse (fuel : nat) (parser : aparser S O E) : apfun S (list O * E) E :=
      fun input => arepeat_loop fuel parser [] input.

    (** crates/parcom-parsers/src/combinator/repeat.rs:25-32 ([parse_once] calls
        [parse]); crates/parcom-parsers/src/extension/parser.rs:69-75 *)
    Definition ARepeat (fuel : nat) (p : aparser S O E) :=
      AP (arepeat_parse fuel p) (fun input => arepeat_parse fuel p input).
  End ARepeat.
End ACombinators.

Section AIterative.
  Context {S A : Type} {RS : ARewindSequence S A}.

  (** ** Optional as an iterative parser; the state is [me.is_some()]. *)
  Section AOptionalIter.
    Context {O E : Type} `{ParseError E}.

    (** crates/parcom-parsers/src/combinator/optional.rs:98-117 *)
    Definition aoptional_next (parser : aparser S O E) (me : bool) (input : S)
      : task (bool * res S (option O) E) :=
      if negb me then tret (false, Ok None input)
      else
        let me' := false in
        let anc := a_anchor input in
        r <~ aparse parser input ;;
        match r with
        | Ok v r => tret (me', Ok (Some v) r)
        | Err e r =>
            if should_terminate e then tret (me', Err e r)
            else r' <~ a_rewind r anc ;; tret (me', Ok None r')
        end.

    (** crates/parcom-parsers/src/combinator/optional.rs:72-91 *)
    Definition aoptional_next_once (parser : aparser S O E) (me : bool) (input : S)
      : task (bool * res S (option O) E) :=
      if negb me then tret (false, Ok None input)
      else
        let me' := false in
        let anc := a_anchor input in
        r <~ aparse_once parser input ;;
        match r with
        | Ok v r => tret (me', Ok (Some v) r)
        | Err e r =>
            if should_terminate e then tret (me', Err e r)
            else r' <~ a_rewind r anc ;; tret (me', Ok None r')
        end.

    (** crates/parcom-parsers/src/combinator/optional.rs:47-65 *)
    Definition AOptionalIter (p : aparser S O E) : aditer bool S O E :=
      ADI (AIT true (aoptional_next p)) (AIT true (aoptional_next_once p)).
  End AOptionalIter.

  (** ** Repeat as an iterative parser; it has no mutable state. *)
  Section ARepeatIter.
    Context {O E : Type} `{ParseError E}.

    (** crates/parcom-parsers/src/combinator/repeat.rs:93-110 *)
    Definition arepeat_next (parser : aparser S O E) (_ : unit) (input : S)
      : task (unit * res S (option O) E) :=
      let anc := a_anchor input in
      r <~ aparse parser input ;;
      match r with
      | Ok v r => tret (tt, Ok (Some v) r)
      | Err e r =>
          if should_terminate e then tret (tt, Err e r)
          else r' <~ a_rewind r anc ;; tret (tt, Ok None r')
      end.

    (** crates/parcom-parsers/src/combinator/repeat.rs:61-85: the borrowed
        session wraps the parser in a [Ref]. *)
    Definition ARepeatIter (p : aparser S O E) : aditer unit S O E :=
      ADI (AIT tt (arepeat_next (ARef p))) (AIT tt (arepeat_next p)).
  End ARepeatIter.

  (** ** map_each *)
  Section AMapEach.
    Context {St O E T : Type}.

    (** crates/parcom-parsers/src/iterative/map_each.rs:61-76 *)
    Definition amap_each_next (it : aiter St S O E) (map : O -> T) (state : St) (input : S)
      : task (St * res S (option T) E) :=
      '(state', r) <~ ait_next it state input ;;
      match r with
      | Ok v r => tret (state', Ok (option_map map v) r)
      | Err e r => tret (state', Err e r)
      end.

    (** crates/parcom-parsers/src/iterative/map_each.rs:21-52 *)
    Definition AMapEach (p : aditer St S O E) (f : O -> T) : aditer St S T E :=
      ADI (AIT (ait_init (aparse_iterative p)) (amap_each_next (aparse_iterative p) f))
         (AIT (ait_init (aparse_iterative_once p)) (amap_each_next (aparse_iterative_once p) f)).
  End AMapEach.

  (** ** map_while *)
  Section AMapWhile.
    Context {St O E T : Type}.

    (** crates/parcom-parsers/src/iterative/map_while.rs:68-83 *)
    Definition amap_while_next (it : aiter St S O E) (f : O -> option T) (state : St) (input : S)
      : task (St * res S (option T) E) :=
      '(state', r) <~ ait_next it state input ;;
      match r with
      | Ok v r => tret (state', Ok (match v with Some x => f x | None => None end) r)
      | Err e r => tret (state', Err e r)
      end.

    (** crates/parcom-parsers/src/iterative/map_while.rs:23-60 *)
    Definition AMapWhile (p : aditer St S O E) (f : O -> option T) : aditer St S T E :=
      ADI (AIT (ait_init (aparse_iterative p)) (amap_while_next (aparse_iterative p) f))
         (AIT (ait_init (aparse_iterative_once p)) (amap_while_next (aparse_iterative_once p) f)).
  End AMapWhile.

  (** ** try_map_each *)
  Section ATryMapEach.
    (** [from] is [E: From<P::Error>]. *)
    Context {St O E T E' : Type} `{ParseError E'} (from : E -> E').

    (** crates/parcom-parsers/src/iterative/try_map_each.rs:86-112 *)
    Definition atry_map_each_next (it : aiter St S O E) (f : O -> result T E')
      (state : St) (input : S) : task (St * res S (option T) E') :=
      '(state', r) <~ ait_next it state input ;;
      match r with
      | Ok (Some v) r =>
          match f v with
          | ROk v => tret (state', Ok (Some v) r)
          | RErr e =>
              if should_terminate e then tret (state', Err e r)
              else tret (state', Ok None r)
          end
      | Ok None r => tret (state', Ok None r)
      | Err e r => tret (state', Err (from e) r)
      end.

    (** crates/parcom-parsers/src/iterative/try_map_each.rs:35-74 *)
    Definition ATryMapEach (p : aditer St S O E) (f : O -> result T E') : aditer St S T E' :=
      ADI (AIT (ait_init (aparse_iterative p)) (atry_map_each_next (aparse_iterative p) f))
         (AIT (ait_init (aparse_iterative_once p)) (atry_map_each_next (aparse_iterative_once p) f)).
  End ATryMapEach.

  (** ** scan; [f : Fn(&mut St, O) -> T] returns the new state and the output. *)
  Section AScan.
    Context {St O E T St2 : Type}.

    (** crates/parcom-parsers/src/iterative/scan.rs:87-105 *)
    Definition ascan_next (it : aiter St S O E) (f : St2 -> O -> St2 * T)
      (state : St * St2) (input : S) : task ((St * St2) * res S (option T) E) :=
      let '(pst, st) := state in
      '(pst', r) <~ ait_next it pst input ;;
      match r with
      | Err e r => tret ((pst', st), Err e r)
      | Ok (Some v) r =>
          let '(st', o) := f st v in
          tret ((pst', st'), Ok (Some o) r)
      | Ok None r => tret ((pst', st), Ok None r)
      end.

    (** crates/parcom-parsers/src/iterative/scan.rs:34-74 *)
    Definition AScan (p : aditer St S O E) (initial_state : St2) (f : St2 -> O -> St2 * T)
      : aditer (St * St2) S T E :=
      ADI (AIT (ait_init (aparse_iterative p), initial_state) (ascan_next (aparse_iterative p) f))
         (AIT (ait_init (aparse_iterative_once p), initial_state) (ascan_next (aparse_iterative_once p) f)).
  End AScan.

  (** ** take; the state is the underlying state and [left]. *)
  Section ATake.
    Context {St O E : Type}.

    (** crates/parcom-parsers/src/iterative/take.rs:59-76 *)
    Definition atake_next (it : aiter St S O E) (state : St * nat) (input : S)
      : task ((St * nat) * res S (option O) E) :=
      let '(st, lft) := state in
      if lft =? 0 then tret ((st, lft), Ok None input)
      else
        '(st', r) <~ ait_next it st input ;;
        match r with
        | Err e r => tret ((st', lft), Err e r)
        | Ok (Some v) r => tret ((st', lft - 1), Ok (Some v) r)
        | Ok None r => tret ((st', lft), Ok None r)
        end.

    (** crates/parcom-parsers/src/iterative/take.rs:23-50 *)
    Definition ATake (p : aditer St S O E) (count : nat) : aditer (St * nat) S O E :=
      ADI (AIT (ait_init (aparse_iterative p), count) (atake_next (aparse_iterative p)))
         (AIT (ait_init (aparse_iterative_once p), count) (atake_next (aparse_iterative_once p))).
  End ATake.

  (** ** fold *)
  Section AFold.
    Context {St O E Acc : Type}.

    (** The [loop] of crates/parcom-parsers/src/iterative/fold.rs:74-91, one
        unit of fuel per iteration. *)
    Fixpoint afold_loop (fuel : nat) (it : aiter St S O E) (f : Acc -> O -> Acc)
      (state : St) (acc : Acc) (rest : S) : task (res S Acc E) :=
      match fuel with
      | 0 => Now OutOfFuel
      | Datatypes.S fuel' =>
          '(state', r) <~ ait_next it state rest ;;
          match r with
          | Err e r => tret (Err e r)
          | Ok (Some v) r => afold_loop fuel' it f state' (f acc v) r
          | Ok None r => adone acc r
          end
      end.

    (** crates/parcom-parsers/src/iterative/fold.rs:37-72 *)
    Definition AFold (fuel : nat) (p : aditer St S O E) (init : Acc) (f : Acc -> O -> Acc)
      : aparser S Acc E :=
      AP (fun input => afold_loop fuel (aparse_iterative p) f (ait_init (aparse_iterative p)) init input)
         (fun input => afold_loop fuel (aparse_iterative_once p) f (ait_init (aparse_iterative_once p)) init input).
  End AFold.

  (** ** collect; [C: Extend<O> + Default] is given by [cdefault], [cextend]
      ([collection.extend(once(v))]). *)
  Section ACollect.
    Context {St O E C : Type} (cdefault : C) (cextend : C -> O -> C).

    (** The [loop] of crates/parcom-parsers/src/iterative/collect.rs:43-65. *)
    Fixpoint acollect_loop (fuel : nat) (it : aiter St S O E) (state : St)
      (collection : C) (rest : S) : task (res S (C * option E) E) :=
      match fuel with
      | 0 => Now OutOfFuel
      | Datatypes.S fuel' =>
          let anc := a_anchor rest in
          '(state', r) <~ ait_next it state rest ;;
          match r with
          | Ok None r => r' <~ a_rewind r anc ;; adone (collection, None) r'
          | Ok (Some v) r => acollect_loop fuel' it state' (cextend collection v) r
          | Err e r => r' <~ a_rewind r anc ;; adone (collection, Some e) r'
          end
      end.

    (** crates/parcom-parsers/src/iterative/collect.rs:24-41 *)
    Definition ACollect (fuel : nat) (p : aditer St S O E) : aparser S (C * option E) E :=
      AP (fun input => acollect_loop fuel (aparse_iterative p) (ait_init (aparse_iterative p)) cdefault input)
         (fun input => acollect_loop fuel (aparse_iterative_once p) (ait_init (aparse_iterative_once p)) cdefault input).
  End ACollect.
End AIterative.

Section ABinExpr.
  Context {S A : Type} {RS : ARewindSequence S A}.
  Context {T TE Op OE Expr : Type} `{ParseError TE} `{ParseError OE} `{Operator Op}.
  (** [Expr: From<(Expr, Op, Expr)> + From<Term>] *)
  Variable from_term : T -> Expr.
  Variable from_bin : Expr -> Op -> Expr -> Expr.
  (** The largest [usize], and whether arithmetic overflow panics (debug
      builds) or wraps (release builds). *)
  Variable usize_max : nat.
  Variable overflow_checks : bool.

  (** The outer [loop] of bin_expr.rs:101-145 and what follows it (147-151). *)
  Fixpoint abin_loop (fuel : nat) (parser_term : aparser S T TE) (parser_op : aparser S Op OE)
    (prec : nat) (stack : list (Expr * Op)) (rhs : Expr) (rest : S)
    : task (res S (Expr * result (Op * A) (Either OE TE)) (Either OE TE)) :=
    match fuel with
    | 0 => Now OutOfFuel
    | Datatypes.S fuel' =>
        let anc := a_anchor rest in
        o <~ aparse parser_op rest ;;
        match o with
        | Ok op r =>
            if prec <=? precedence op then
              t <~ aparse parser_term r ;;
              match t with
              | Ok term r =>
                  '(stack', rhs') <~ Now (insert_loop from_bin usize_max overflow_checks stack rhs op (from_term term)) ;;
                  abin_loop fuel' parser_term parser_op prec stack' rhs' r
              | Err e r =>
                  if negb (should_terminate e) then
                    rest' <~ a_rewind r anc ;;
                    adone (reduce_all from_bin stack rhs, RErr (Last e)) rest'
                  else afail (Last e) r
              end
            else adone (reduce_all from_bin stack rhs, ROk (op, anc)) r
        | Err e r =>
            if should_terminate e then afail (First e) r
            else
              rest' <~ a_rewind r anc ;;
              adone (reduce_all from_bin stack rhs, RErr (First e)) rest'
        end
    end.

  (** bin_expr.rs:78-152 *)
  Definition aparse_impl (fuel : nat) (parser_term : aparser S T TE) (parser_op : aparser S Op OE)
    (input : S) (prec : nat)
    : task (res S (Expr * result (Op * A) (Either OE TE)) (Either OE TE)) :=
    r <~ aparse parser_term input ;;
    match r with
    | Err e r => afail (Last e) r
    | Ok rhs rest => abin_loop fuel parser_term parser_op prec [] (from_term rhs) rest
    end.

  (** bin_expr.rs:52-58 *)
  Definition abin_expr_parse (fuel : nat) (parser_term : aparser S T TE) (parser_op : aparser S Op OE)
    : apfun S (Expr * Either OE TE) (Either OE TE) :=
    fun input =>
      r <~ aparse_impl fuel parser_term parser_op input 0 ;;
      match r with
      | Err e r => afail e r
      | Ok (e, reason) rest =>
          match reason with
          | RErr reason => adone (e, reason) rest
          | ROk _ => Now Panic  (* unreachable!() *)
          end
      end.

  (** bin_expr.rs:28-42 ([parse_once] calls [parse]), 69-75 *)
  Definition ABinExpr (fuel : nat) (parser_term : aparser S T TE) (parser_op : aparser S Op OE)
    : aparser S (Expr * Either OE TE) (Either OE TE) :=
    AP (abin_expr_parse fuel parser_term parser_op)
       (fun input => abin_expr_parse fuel parser_term parser_op input).
End ABinExpr.
