(** * S_Any: expressions for every parser that can be put together from given
    ones with the combinators, over any sequence; and what it is for two
    sequences to correspond. *)
From Verif Require Export M_Base M_Comb M_Iter M_BinExpr M_Seq M_Prim S_Seq S_PegOn.

Section Expressions.
  (** The parsers one starts from. *)
  Variable leaf : Type -> Type -> Type.

  Inductive pexp : Type -> Type -> Type :=
  | XLeaf {O E} : leaf O E -> pexp O E
  | XOr {O0 E0 O1 E1} : ParseError E0 -> ParseError E1 -> pexp O0 E0 -> pexp O1 E1 ->
      pexp (Either O0 O1) (EitherBoth E0 E1)
  | XJoin {O0 E0 O1 E1} : pexp O0 E0 -> pexp O1 E1 -> pexp (O0 * O1) (Either E0 E1)
  | XMap {O E X} : pexp O E -> (O -> X) -> pexp X E
  | XMapErr {O E X} : pexp O E -> (E -> X) -> pexp O X
  | XAndThen {O E O' E'} : (E -> E') -> pexp O E -> (O -> result O' E') -> pexp O' E'
  | XUnify {E T0 T1 T} : (T0 -> T) -> (T1 -> T) -> pexp (Either T0 T1) E -> pexp T E
  | XUnifyErr {O T0 T1 T} : (T0 -> T) -> (T1 -> T) -> pexp O (Either T0 T1) -> pexp O T
  | XRef {O E} : pexp O E -> pexp O E
  | XBoxed {O E} : pexp O E -> pexp O E
  | XOptional {O E} : ParseError E -> pexp O E -> pexp (result O E) E
  | XRepeat {O E} : ParseError E -> nat -> pexp O E -> pexp (list O * E) E
  | XFold {St O E Acc} : nat -> iexp St O E -> Acc -> (Acc -> O -> Acc) -> pexp Acc E
  | XCollect {St O E C} : C -> (C -> O -> C) -> nat -> iexp St O E -> pexp (C * option E) E
  | XBinExpr {T TE Op OE Expr} : ParseError TE -> ParseError OE -> Operator Op ->
      (T -> Expr) -> (Expr -> Op -> Expr -> Expr) -> nat -> bool -> nat -> pexp T TE -> pexp Op OE ->
      pexp (Expr * Either OE TE) (Either OE TE)
  with iexp : Type -> Type -> Type -> Type :=
  | YOptional {O E} : ParseError E -> pexp O E -> iexp bool O E
  | YRepeat {O E} : ParseError E -> pexp O E -> iexp unit O E
  | YMapEach {St O E X} : iexp St O E -> (O -> X) -> iexp St X E
  | YMapWhile {St O E X} : iexp St O E -> (O -> option X) -> iexp St X E
  | YTryMapEach {St O E X E'} : ParseError E' -> (E -> E') -> iexp St O E -> (O -> result X E') -> iexp St X E'
  | YScan {St O E X St2} : iexp St O E -> St2 -> (St2 -> O -> St2 * X) -> iexp (St * St2) X E
  | YTake {St O E} : iexp St O E -> nat -> iexp (St * nat) O E
  | YRef {St O E} : iexp St O E -> iexp St O E.

  (** The parser of an expression over a sequence. *)
  Context {S A : Type} {RW : RewindSequence S A}.
  Variable prim : forall O E, leaf O E -> dparser S O E.

  Fixpoint build {O E} (x : pexp O E) : dparser S O E :=
    match x with
    | XLeaf p => prim _ _ p
    | XOr P0 P1 p q => Or (build p) (build q)
    | XJoin p q => Join (build p) (build q)
    | XMap p f => Map (build p) f
    | XMapErr p f => MapErr (build p) f
    | XAndThen from p f => AndThen from (build p) f
    | XUnify f g p => Unify f g (build p)
    | XUnifyErr f g p => UnifyErr f g (build p)
    | XRef p => Ref (build p)
    | XBoxed p => Boxed (build p)
    | XOptional PE p => Optional (build p)
    | XRepeat PE fuel p => Repeat fuel (build p)
    | XFold fuel p a f => Fold fuel (build_iter p) a f
    | XCollect c0 ext fuel p => Collect c0 ext fuel (build_iter p)
    | XBinExpr PT PO OP term bin max checks fuel p q => BinExpr term bin max checks fuel (build p) (build q)
    end
  with build_iter {St O E} (y : iexp St O E) : diter St S O E :=
    match y with
    | YOptional PE p => OptionalIter (build p)
    | YRepeat PE p => RepeatIter (build p)
    | YMapEach p f => MapEach (build_iter p) f
    | YMapWhile p f => MapWhile (build_iter p) f
    | YTryMapEach PE from p f => TryMapEach from (build_iter p) f
    | YScan p a f => Scan (build_iter p) a f
    | YTake p n => Take (build_iter p) n
    | YRef p => IterRef (build_iter p)
    end.
End Expressions.
Arguments XLeaf {leaf} {O E}.
Arguments XOr {leaf} {O0 E0 O1 E1}.
Arguments XJoin {leaf} {O0 E0 O1 E1}.
Arguments XMap {leaf} {O E X}.
Arguments XMapErr {leaf} {O E X}.
Arguments XAndThen {leaf} {O E O' E'}.
Arguments XUnify {leaf} {E T0 T1 T}.
Arguments XUnifyErr {leaf} {O T0 T1 T}.
Arguments XRef {leaf} {O E}.
Arguments XBoxed {leaf} {O E}.
Arguments XOptional {leaf} {O E}.
Arguments XRepeat {leaf} {O E}.
Arguments XFold {leaf} {St O E Acc}.
Arguments XCollect {leaf} {St O E C}.
Arguments XBinExpr {leaf} {T TE Op OE Expr}.
Arguments YOptional {leaf} {O E}.
Arguments YRepeat {leaf} {O E}.
Arguments YMapEach {leaf} {St O E X}.
Arguments YMapWhile {leaf} {St O E X}.
Arguments YTryMapEach {leaf} {St O E X E'}.
Arguments YScan {leaf} {St O E X St2}.
Arguments YTake {leaf} {St O E}.
Arguments YRef {leaf} {St O E}.

(** Two sequences correspond: [pair], positions that do; [step], the positions
    two that do move to.  Both can be rewound to where they came from. *)
Record corresponds {S1 A1 S2 A2} {R1 : RewindSequence S1 A1} {R2 : RewindSequence S2 A2}
    (pair : S1 -> S2 -> Prop) (step : S1 -> S2 -> S1 -> S2 -> Prop) : Prop := {
  step_pair : forall s1 s2 r1 r2, pair s1 s2 -> step s1 s2 r1 r2 -> pair r1 r2;
  step_refl : forall s1 s2, pair s1 s2 -> step s1 s2 s1 s2;
  step_trans : forall s1 s2 r1 r2 q1 q2, step s1 s2 r1 r2 -> step r1 r2 q1 q2 -> step s1 s2 q1 q2;
  back1 : forall s1 s2 r1 r2, pair s1 s2 -> step s1 s2 r1 r2 -> rewind r1 (anchor s1) = Ret s1;
  back2 : forall s1 s2 r1 r2, pair s1 s2 -> step s1 s2 r1 r2 -> rewind r2 (anchor s2) = Ret s2
}.

(** Two results that agree: the same output or error, at positions reached in
    step, or the same panic. *)
Definition agree {S1 S2 O E} (step : S1 -> S2 -> S1 -> S2 -> Prop) (s1 : S1) (s2 : S2)
    (c1 : comp (res S1 O E)) (c2 : comp (res S2 O E)) : Prop :=
  match c1, c2 with
  | Ret (Ok x r1), Ret (Ok y r2) => x = y /\ step s1 s2 r1 r2
  | Ret (Err x r1), Ret (Err y r2) => x = y /\ step s1 s2 r1 r2
  | Panic, Panic | UB, UB | OutOfFuel, OutOfFuel => True
  | _, _ => False
  end.

Definition agreeing {S1 S2 O E} (pair : S1 -> S2 -> Prop) (step : S1 -> S2 -> S1 -> S2 -> Prop)
    (p1 : dparser S1 O E) (p2 : dparser S2 O E) : Prop :=
  forall s1 s2, pair s1 s2 ->
    agree step s1 s2 (parse p1 s1) (parse p2 s2) /\ agree step s1 s2 (parse_once p1 s1) (parse_once p2 s2).

(** The item parsers as leaves. *)
Inductive item_leaf (T : Type) : Type -> Type -> Type :=
| LAny : item_leaf T T (Miss unit)
| LThe : T -> item_leaf T unit (Miss unit)
| LAtom : list T -> item_leaf T unit (Miss unit).
Arguments LAny {T}.
Arguments LThe {T} _.
Arguments LAtom {T} _.
Definition items_of {S T} (P : prims S T) O E (l : item_leaf T O E) : dparser S O E :=
  match l with LAny => p_any P | LThe x => p_the P x | LAtom p => p_atom P p end.
(** Those that look at one item, safe where segments end (atom is not, C26). *)
Inductive single_leaf (T : Type) : Type -> Type -> Type :=
| KAny : single_leaf T T (Miss unit)
| KThe : T -> single_leaf T unit (Miss unit).
Arguments KAny {T}.
Arguments KThe {T} _.
Definition singles_of {S T} (P : prims S T) O E (l : single_leaf T O E) : dparser S O E :=
  match l with KAny => p_any P | KThe x => p_the P x end.
