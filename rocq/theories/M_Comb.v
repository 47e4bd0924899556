(** * M_Comb: the parser combinators of crates/parcom-parsers/src/combinator
    and crates/parcom-parsers/src/util.rs.  Model only; no proofs.
    Every combinator has the two bodies of the source: [*_parse] for
    [Parser::parse] and [*_parse_once] for [ParserOnce::parse_once]. *)
From Verif Require Export M_Base.

Set Implicit Arguments.

Section Combinators.
  (** The sequence type and its anchor type. *)
  Context {S A : Type} {RS : RewindSequence S A}.

  (** ** or *)
  Section Or.
    Context {O0 E0 O1 E1 : Type} `{ParseError E0} `{ParseError E1}.

    (** crates/parcom-parsers/src/combinator/or.rs:46-66 *)
    Definition or_parse (parser0 : dparser S O0 E0) (parser1 : dparser S O1 E1)
      : pfun S (Either O0 O1) (EitherBoth E0 E1) :=
      fun input =>
        let anc := anchor input in
        r0 <- parse parser0 input ;;
        match r0 with
        | Ok v r => done (First v) r
        | Err e r =>
            if negb (should_terminate e) then
              let err0 := e in
              input' <- rewind r anc ;;
              r1 <- parse parser1 input' ;;
              match r1 with
              | Ok v r => done (Last v) r
              | Err e r =>
                  if negb (should_terminate e)
                  then fail (BBoth err0 e) r
                  else fail (BLast e) r
              end
            else fail (BFirst e) r
        end.

    (** crates/parcom-parsers/src/combinator/or.rs:22-44 *)
    Definition or_parse_once (parser0 : dparser S O0 E0) (parser1 : dparser S O1 E1)
      : pfun S (Either O0 O1) (EitherBoth E0 E1) :=
      fun input =>
        let anc := anchor input in
        r0 <- parse_once parser0 input ;;
        match r0 with
        | Ok v r => done (First v) r
        | Err e r =>
            if negb (should_terminate e) then
              let err0 := e in
              input' <- rewind r anc ;;
              r1 <- parse_once parser1 input' ;;
              match r1 with
              | Ok v r => done (Last v) r
              | Err e r =>
                  if negb (should_terminate e)
                  then fail (BBoth err0 e) r
                  else fail (BLast e) r
              end
            else fail (BFirst e) r
        end.

    (** crates/parcom-parsers/src/combinator/or.rs:5-20 [Or::new],
        crates/parcom-parsers/src/extension/parser.rs:14-20 *)
    Definition Or (p0 : dparser S O0 E0) (p1 : dparser S O1 E1) :=
      DP (or_parse p0 p1) (or_parse_once p0 p1).
  End Or.

  (** ** join *)
  Section Join.
    Context {O0 E0 O1 E1 : Type}.

    (** crates/parcom-parsers/src/combinator/join.rs:43-58 *)
    Definition join_parse (parser0 : dparser S O0 E0) (parser1 : dparser S O1 E1)
      : pfun S (O0 * O1) (Either E0 E1) :=
      fun input =>
        r0 <- parse parser0 input ;;
        match r0 with
        | Err e r => fail (First e) r
        | Ok item0 rest =>
            r1 <- parse parser1 rest ;;
            match r1 with
            | Err e r => fail (Last e) r
            | Ok item1 rest => done (item0, item1) rest
            end
        end.

    (** crates/parcom-parsers/src/combinator/join.rs:22-41 *)
    Definition join_parse_once (parser0 : dparser S O0 E0) (parser1 : dparser S O1 E1)
      : pfun S (O0 * O1) (Either E0 E1) :=
      fun input =>
        r0 <- parse_once parser0 input ;;
        match r0 with
        | Err e r => fail (First e) r
        | Ok item0 rest =>
            r1 <- parse_once parser1 rest ;;
            match r1 with
            | Err e r => fail (Last e) r
            | Ok item1 rest => done (item0, item1) rest
            end
        end.

    (** crates/parcom-parsers/src/extension/parser.rs:22-28 *)
    Definition Join (p0 : dparser S O0 E0) (p1 : dparser S O1 E1) :=
      DP (join_parse p0 p1) (join_parse_once p0 p1).
  End Join.

  (** ** map, map_err *)
  Section Map.
    Context {O E U : Type}.

    (** crates/parcom-parsers/src/combinator/map.rs:34-41 *)
    Definition map_parse (parser : dparser S O E) (mapping : O -> U) : pfun S U E :=
      fun input =>
        r <- parse parser input ;;
        match r with
        | Ok v r => Ret (Ok (mapping v) r)
        | Err e r => Ret (Err e r)
        end.

    (** crates/parcom-parsers/src/combinator/map.rs:21-33 *)
    Definition map_parse_once (parser : dparser S O E) (mapping : O -> U) : pfun S U E :=
      fun input =>
        r <- parse_once parser input ;;
        match r with
        | Ok v r => Ret (Ok (mapping v) r)
        | Err e r => Ret (Err e r)
        end.

    (** crates/parcom-parsers/src/extension/parser.rs:30-35 *)
    Definition Map (p : dparser S O E) (f : O -> U) :=
      DP (map_parse p f) (map_parse_once p f).

    (** crates/parcom-parsers/src/combinator/map.rs:74-83 *)
    Definition map_err_parse (parser : dparser S O E) (mapping : E -> U) : pfun S O U :=
      fun input =>
        r <- parse parser input ;;
        match r with
        | Ok v r => Ret (Ok v r)
        | Err e r => Ret (Err (mapping e) r)
        end.

    (** crates/parcom-parsers/src/combinator/map.rs:60-72 *)
    Definition map_err_parse_once (parser : dparser S O E) (mapping : E -> U) : pfun S O U :=
      fun input =>
        r <- parse_once parser input ;;
        match r with
        | Ok v r => Ret (Ok v r)
        | Err e r => Ret (Err (mapping e) r)
        end.

    (** crates/parcom-parsers/src/extension/parser.rs:37-42 *)
    Definition MapErr (p : dparser S O E) (f : E -> U) :=
      DP (map_err_parse p f) (map_err_parse_once p f).
  End Map.

  (** ** and_then *)
  Section AndThen.
    (** [from] is [E: From<P::Error>]. *)
    Context {O E O' E' : Type} (from : E -> E').

    (** crates/parcom-parsers/src/combinator/and_then.rs:57-75 *)
    Definition and_then_parse (parser : dparser S O E) (f : O -> result O' E')
      : pfun S O' E' :=
      fun input =>
        r <- parse parser input ;;
        match r with
        | Err e r => fail (from e) r
        | Ok v r =>
            match f v with
            | ROk v => done v r
            | RErr e => fail e r
            end
        end.

    (** crates/parcom-parsers/src/combinator/and_then.rs:34-55 *)
    Definition and_then_parse_once (parser : dparser S O E) (f : O -> result O' E')
      : pfun S O' E' :=
      fun input =>
        r <- parse_once parser input ;;
        match r with
        | Err e r => fail (from e) r
        | Ok v r =>
            match f v with
            | ROk v => done v r
            | RErr e => fail e r
            end
        end.

    (** crates/parcom-parsers/src/extension/parser.rs:77-84 *)
    Definition AndThen (p : dparser S O E) (f : O -> result O' E') :=
      DP (and_then_parse p f) (and_then_parse_once p f).
  End AndThen.

  (** ** unify, unify_err *)
  Section Unify.
    Context {O E T0 T1 T : Type} (into0 : T0 -> T) (into1 : T1 -> T).

    (** crates/parcom-parsers/src/combinator/unify.rs:50-62 *)
    Definition unify_parse (parser : dparser S (Either T0 T1) E) : pfun S T E :=
      fun input =>
        r <- parse parser input ;;
        match r with
        | Err e r => Ret (Err e r)
        | Ok e r => done (either_unify into0 into1 e) r
        end.

    (** crates/parcom-parsers/src/combinator/unify.rs:32-48 *)
    Definition unify_parse_once (parser : dparser S (Either T0 T1) E) : pfun S T E :=
      fun input =>
        r <- parse_once parser input ;;
        match r with
        | Err e r => Ret (Err e r)
        | Ok (First v) r => done (into0 v) r
        | Ok (Last v) r => done (into1 v) r
        end.

    (** crates/parcom-parsers/src/extension/parser.rs:51-58 *)
    Definition Unify (p : dparser S (Either T0 T1) E) :=
      DP (unify_parse p) (unify_parse_once p).

    (** crates/parcom-parsers/src/combinator/unify.rs:112-126 *)
    Definition unify_err_parse (parser : dparser S O (Either T0 T1)) : pfun S O T :=
      fun input =>
        r <- parse parser input ;;
        match r with
        | Ok v r => Ret (Ok v r)
        | Err e r => Ret (Err (either_unify into0 into1 e) r)
        end.

    (** crates/parcom-parsers/src/combinator/unify.rs:90-110 *)
    Definition unify_err_parse_once (parser : dparser S O (Either T0 T1)) : pfun S O T :=
      fun input =>
        r <- parse_once parser input ;;
        match r with
        | Ok v r => Ret (Ok v r)
        | Err (First e) r => Ret (Err (into0 e) r)
        | Err (Last e) r => Ret (Err (into1 e) r)
        end.

    (** crates/parcom-parsers/src/extension/parser.rs:60-67 *)
    Definition UnifyErr (p : dparser S O (Either T0 T1)) :=
      DP (unify_err_parse p) (unify_err_parse_once p).
  End Unify.

  (** ** as_ref, boxed *)
  Section Ref.
    Context {O E : Type}.

    (** crates/parcom-parsers/src/combinator/reference.rs:29-41:
        [parse] calls the referenced parser's [parse]; [parse_once] calls
        [parse] of the reference. *)
    Definition ref_parse (parser : dparser S O E) : pfun S O E :=
      fun input => parse parser input.
    Definition Ref (p : dparser S O E) := DP (ref_parse p) (fun input => ref_parse p input).

    (** crates/parcom-parsers/src/util.rs:18-39; boxing the future has no
        effect on its value. *)
    Definition boxed_parse (parser : dparser S O E) : pfun S O E :=
      fun input => parse parser input.
    Definition boxed_parse_once (parser : dparser S O E) : pfun S O E :=
      fun input => parse_once parser input.
    Definition Boxed (p : dparser S O E) := DP (boxed_parse p) (boxed_parse_once p).
  End Ref.

  (** ** optional *)
  Section Optional.
    Context {O E : Type} `{ParseError E}.

    (** crates/parcom-parsers/src/combinator/optional.rs:36-45 *)
    Definition optional_parse (parser : dparser S O E) : pfun S (result O E) E :=
      fun input =>
        let anc := anchor input in
        r <- parse parser input ;;
        match r with
        | Ok v r => done (ROk v) r
        | Err e r =>
            if negb (should_terminate e) then
              r' <- rewind r anc ;;
              done (RErr e) r'
            else fail e r
        end.

    (** crates/parcom-parsers/src/combinator/optional.rs:22-34 *)
    Definition optional_parse_once (parser : dparser S O E) : pfun S (result O E) E :=
      fun input =>
        let anc := anchor input in
        r <- parse_once parser input ;;
        match r with
        | Ok v r => done (ROk v) r
        | Err e r =>
            if negb (should_terminate e) then
              r' <- rewind r anc ;;
              done (RErr e) r'
            else fail e r
        end.

    (** crates/parcom-parsers/src/extension/parser.rs:6-12 *)
    Definition Optional (p : dparser S O E) :=
      DP (optional_parse p) (optional_parse_once p).
  End Optional.

  (** ** repeat *)
  Section Repeat.
    Context {O E : Type} `{ParseError E}.

    (** The [loop] of crates/parcom-parsers/src/combinator/repeat.rs:39-57,
        one unit of fuel per iteration; [buf] is the [Vec], oldest first. *)
    Fixpoint repeat_loop (fuel : nat) (parser : dparser S O E) (buf : list O) (rest : S)
      : comp (res S (list O * E) E) :=
      match fuel with
      | 0 => OutOfFuel
      | Datatypes.S fuel' =>
          let anc := anchor rest in
          r <- parse parser rest ;;
          match r with
          | Ok v r => repeat_loop fuel' parser (buf ++ [v]) r
          | Err e r =>
              if should_terminate e then fail e r
              else
                rest' <- rewind r anc ;;
                done (buf, e) rest'
          end
      end.

    (** crates/parcom-parsers/src/combinator/repeat.rs:34-59 *)
    Definition repeat_parse (fuel : nat) (parser : dparser S O E) : pfun S (list O * E) E :=
      fun input => repeat_loop fuel parser [] input.

    (** crates/parcom-parsers/src/combinator/repeat.rs:25-32 ([parse_once] calls
        [parse]); crates/parcom-parsers/src/extension/parser.rs:69-75 *)
    Definition Repeat (fuel : nat) (p : dparser S O E) :=
      DP (repeat_parse fuel p) (fun input => repeat_parse fuel p input).
  End Repeat.
End Combinators.
