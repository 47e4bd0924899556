(** * M_LiveJoin: parsers joined on the runner's sequence while loaders run:
    crates/parcom-parsers/src/combinator/join.rs, map.rs, and_then.rs, unify.rs,
    reference.rs and util.rs over the parsers of M_Live, and async functions over
    them (crates/parcom-core/src/parser.rs:9-28).  Model only; no proofs.
    [DefaultSequence] has no [rewind], so these are the combinators that a
    parser on it can be built with; [Join] never rewinds but asks for a
    [RewindSequence] all the same (join.rs:22, 43), so there [PJoin] stands for
    the async function that does what its body does (C82_join_written).  Each of
    their bodies awaits one parser after
    the other and gives the sequence that one hands back to the next; between
    two parsers loaders act as they do at the end of the first.  An async
    function goes on only after a success, with whatever parser it picks by the
    output ([PThen]): after a failure it cannot use the sequence
    (crates/parcom-core/src/unknown.rs:4). *)
From Verif Require Export M_Live M_Comb.

Set Implicit Arguments.

Section LiveJoin.
  Context {T : Type} (eqb : T -> T -> bool).

  Inductive lparser : Type -> Type -> Type :=
  | PAny : lparser T (Miss unit)
  | PThe (x : T) : lparser unit (Miss unit)
  | PAtom (pattern : list T) : lparser unit (Miss unit)
  (* a parser of the user's own that looks through the segments, decides, and
     advances or misses; as every implementation of [Parser] for all [S: Sequence]
     it has only [segments] and [advance] (crates/parcom-core/src/sequence.rs:13-23) *)
  | PLook O (l : @looker T O) : lparser O (Miss unit)
  | PJoin O0 E0 O1 E1 (p0 : lparser O0 E0) (p1 : lparser O1 E1) : lparser (O0 * O1) (Either E0 E1)
  | PMap O E U (p : lparser O E) (f : O -> U) : lparser U E
  | PMapErr O E U (p : lparser O E) (f : E -> U) : lparser O U
  | PAndThen O E O' E' (from : E -> E') (p : lparser O E) (f : O -> result O' E') : lparser O' E'
  | PUnify T0 T1 U E (into0 : T0 -> U) (into1 : T1 -> U) (p : lparser (Either T0 T1) E) : lparser U E
  | PUnifyErr O T0 T1 U (into0 : T0 -> U) (into1 : T1 -> U) (p : lparser O (Either T0 T1)) : lparser O U
  | PRef O E (p : lparser O E) : lparser O E
  | PBoxed O E (p : lparser O E) : lparser O E
  (* async functions: [done(o, input)], [fail(e, input)], and
     [let (o, rest) = p.parse(input).await?; k(o).parse(rest).await] *)
  | PDone O E (o : O) : lparser O E
  | PFail O E (e : E) : lparser O E
  | PThen O E O' E' (from : E -> E') (p : lparser O E) (k : O -> lparser O' E') : lparser O' E'.

  Section Run.
    Variable modulus : nat.

    (** What a parser hands back: the sequence is the shared state and the
        buffer's position. *)
    Inductive outcome (O E : Type) :=
    | Took (o : O) (x : @shared T) (b : gbuffer)
    | Failed (e : E) (x : @shared T) (b : gbuffer).
    Arguments Took {O E} _ _ _. Arguments Failed {O E} _ _ _.

    (** One primitive parser from its start to its answer, and the events
        meanwhile, newest first. *)
    Inductive prim_runs O (p : @looker T O) (x : @shared T) (b : gbuffer)
      : list (@revent T) -> outcome O (Miss unit) -> Prop :=
    | pr_took h o a :
        lreach modulus p x b (LAdvance h o a) -> a_pc a = AReady ->
        prim_runs p x b (a_hist a ++ h) (Took o (a_sh a) (a_buf a))
    | pr_failed b' s :
        lreach modulus p x b (LMiss b' s) ->
        prim_runs p x b (s_hist s) (Failed (MkMiss tt) (s_sh s) b').

    Inductive runs : forall O E, lparser O E -> @shared T -> gbuffer -> list (@revent T) -> outcome O E -> Prop :=
    | run_any x b h r : prim_runs any_looker x b h r -> runs PAny x b h r
    | run_the y x b h r : prim_runs (the_looker eqb y) x b h r -> runs (PThe y) x b h r
    | run_atom pat x b h r : prim_runs (atom_looker eqb pat) x b h r -> runs (PAtom pat) x b h r
    | run_look O (l : @looker T O) x b h r : prim_runs l x b h r -> runs (PLook l) x b h r
    (* join.rs:43-58 *)
    | run_join O0 E0 O1 E1 (p0 : lparser O0 E0) (p1 : lparser O1 E1) x b h0 o0 x0 b0 h1 o1 x1 b1 :
        runs p0 x b h0 (Took o0 x0 b0) -> runs p1 x0 b0 h1 (Took o1 x1 b1) ->
        runs (PJoin p0 p1) x b (h1 ++ h0) (Took (o0, o1) x1 b1)
    | run_join_first O0 E0 O1 E1 (p0 : lparser O0 E0) (p1 : lparser O1 E1) x b h e x0 b0 :
        runs p0 x b h (Failed e x0 b0) -> runs (PJoin p0 p1) x b h (Failed (First e) x0 b0)
    | run_join_last O0 E0 O1 E1 (p0 : lparser O0 E0) (p1 : lparser O1 E1) x b h0 o0 x0 b0 h1 e x1 b1 :
        runs p0 x b h0 (Took o0 x0 b0) -> runs p1 x0 b0 h1 (Failed e x1 b1) ->
        runs (PJoin p0 p1) x b (h1 ++ h0) (Failed (Last e) x1 b1)
    (* map.rs:35-40 *)
    | run_map O E U (p : lparser O E) (f : O -> U) x b h o x0 b0 :
        runs p x b h (Took o x0 b0) -> runs (PMap p f) x b h (Took (f o) x0 b0)
    | run_map_fails O E U (p : lparser O E) (f : O -> U) x b h e x0 b0 :
        runs p x b h (Failed e x0 b0) -> runs (PMap p f) x b h (Failed e x0 b0)
    (* map.rs:77-82 *)
    | run_map_err O E U (p : lparser O E) (f : E -> U) x b h o x0 b0 :
        runs p x b h (Took o x0 b0) -> runs (PMapErr p f) x b h (Took o x0 b0)
    | run_map_err_fails O E U (p : lparser O E) (f : E -> U) x b h e x0 b0 :
        runs p x b h (Failed e x0 b0) -> runs (PMapErr p f) x b h (Failed (f e) x0 b0)
    (* and_then.rs:57-75 *)
    | run_and_then O E O' E' (from : E -> E') (p : lparser O E) (f : O -> result O' E') x b h o o' x0 b0 :
        runs p x b h (Took o x0 b0) -> f o = ROk o' -> runs (PAndThen from p f) x b h (Took o' x0 b0)
    | run_and_then_refused O E O' E' (from : E -> E') (p : lparser O E) (f : O -> result O' E') x b h o e x0 b0 :
        runs p x b h (Took o x0 b0) -> f o = RErr e -> runs (PAndThen from p f) x b h (Failed e x0 b0)
    | run_and_then_fails O E O' E' (from : E -> E') (p : lparser O E) (f : O -> result O' E') x b h e x0 b0 :
        runs p x b h (Failed e x0 b0) -> runs (PAndThen from p f) x b h (Failed (from e) x0 b0)
    (* unify.rs:50-62 *)
    | run_unify T0 T1 U E (into0 : T0 -> U) (into1 : T1 -> U) (p : lparser (Either T0 T1) E) x b h o x0 b0 :
        runs p x b h (Took o x0 b0) -> runs (PUnify into0 into1 p) x b h (Took (either_unify into0 into1 o) x0 b0)
    | run_unify_fails T0 T1 U E (into0 : T0 -> U) (into1 : T1 -> U) (p : lparser (Either T0 T1) E) x b h e x0 b0 :
        runs p x b h (Failed e x0 b0) -> runs (PUnify into0 into1 p) x b h (Failed e x0 b0)
    (* unify.rs:112-126 *)
    | run_unify_err O T0 T1 U (into0 : T0 -> U) (into1 : T1 -> U) (p : lparser O (Either T0 T1)) x b h o x0 b0 :
        runs p x b h (Took o x0 b0) -> runs (PUnifyErr into0 into1 p) x b h (Took o x0 b0)
    | run_unify_err_fails O T0 T1 U (into0 : T0 -> U) (into1 : T1 -> U) (p : lparser O (Either T0 T1)) x b h e x0 b0 :
        runs p x b h (Failed e x0 b0) -> runs (PUnifyErr into0 into1 p) x b h (Failed (either_unify into0 into1 e) x0 b0)
    (* reference.rs:29-41 *)
    | run_ref O E (p : lparser O E) x b h r : runs p x b h r -> runs (PRef p) x b h r
    (* util.rs:18-39 *)
    | run_boxed O E (p : lparser O E) x b h r : runs p x b h r -> runs (PBoxed p) x b h r
    (* an async function that does not await, and one that awaits [p] and, after
       a success, the parser that it picks *)
    | run_done O E (o : O) x b : runs (@PDone O E o) x b [] (Took o x b)
    | run_fail O E (e : E) x b : runs (@PFail O E e) x b [] (Failed e x b)
    | run_then O E O' E' (from : E -> E') (p : lparser O E) (k : O -> lparser O' E') x b h0 o x0 b0 h1 r :
        runs p x b h0 (Took o x0 b0) -> runs (k o) x0 b0 h1 r -> runs (PThen from p k) x b (h1 ++ h0) r
    | run_then_fails O E O' E' (from : E -> E') (p : lparser O E) (k : O -> lparser O' E') x b h e x0 b0 :
        runs p x b h (Failed e x0 b0) -> runs (PThen from p k) x b h (Failed (from e) x0 b0).

    (** The sequences on which a parser starts its primitive parsers. *)
    Inductive starts : forall O E, lparser O E -> @shared T -> gbuffer -> @shared T -> gbuffer -> Prop :=
    | st_any x b : starts PAny x b x b
    | st_the y x b : starts (PThe y) x b x b
    | st_atom pat x b : starts (PAtom pat) x b x b
    | st_look O (l : @looker T O) x b : starts (PLook l) x b x b
    | st_join_first O0 E0 O1 E1 (p0 : lparser O0 E0) (p1 : lparser O1 E1) x b x' b' :
        starts p0 x b x' b' -> starts (PJoin p0 p1) x b x' b'
    | st_join_last O0 E0 O1 E1 (p0 : lparser O0 E0) (p1 : lparser O1 E1) x b h0 o0 x0 b0 x' b' :
        runs p0 x b h0 (Took o0 x0 b0) -> starts p1 x0 b0 x' b' -> starts (PJoin p0 p1) x b x' b'
    | st_map O E U (p : lparser O E) (f : O -> U) x b x' b' :
        starts p x b x' b' -> starts (PMap p f) x b x' b'
    | st_map_err O E U (p : lparser O E) (f : E -> U) x b x' b' :
        starts p x b x' b' -> starts (PMapErr p f) x b x' b'
    | st_and_then O E O' E' (from : E -> E') (p : lparser O E) (f : O -> result O' E') x b x' b' :
        starts p x b x' b' -> starts (PAndThen from p f) x b x' b'
    | st_unify T0 T1 U E (into0 : T0 -> U) (into1 : T1 -> U) (p : lparser (Either T0 T1) E) x b x' b' :
        starts p x b x' b' -> starts (PUnify into0 into1 p) x b x' b'
    | st_unify_err O T0 T1 U (into0 : T0 -> U) (into1 : T1 -> U) (p : lparser O (Either T0 T1)) x b x' b' :
        starts p x b x' b' -> starts (PUnifyErr into0 into1 p) x b x' b'
    | st_ref O E (p : lparser O E) x b x' b' : starts p x b x' b' -> starts (PRef p) x b x' b'
    | st_boxed O E (p : lparser O E) x b x' b' : starts p x b x' b' -> starts (PBoxed p) x b x' b'
    | st_then O E O' E' (from : E -> E') (p : lparser O E) (k : O -> lparser O' E') x b x' b' :
        starts p x b x' b' -> starts (PThen from p k) x b x' b'
    | st_then_on O E O' E' (from : E -> E') (p : lparser O E) (k : O -> lparser O' E') x b h0 o x0 b0 x' b' :
        runs p x b h0 (Took o x0 b0) -> starts (k o) x0 b0 x' b' -> starts (PThen from p k) x b x' b'.
  End Run.
End LiveJoin.
Arguments lparser T : clear implicits.
Arguments Took {T O E}. Arguments Failed {T O E}.
Arguments PAny {T}. Arguments PDone {T O E} o. Arguments PFail {T O E} e.
