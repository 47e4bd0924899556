(** * S_Brackets: the texts of an operator expression with brackets, for any
    table of operators; the shortest of them; and the recursive parser one
    writes with BinExprParser to read them
    (crates/parcom-parsers/src/combinator/bin_expr.rs:209-233 is one). *)
From Verif Require Export S_BinExpr M_Comb M_BinExpr.

Set Implicit Arguments.

Section Texts.
  Context {A Op : Type} {OP : Operator Op}.

  (** [Junk] is anything that is none of the others. *)
  Inductive token := Atom (a : A) | Sym (o : Op) | Open | Close | Junk.

  (** [writes e cs o]: the text [cs] means the expression [e]; [o] is the operator
      that is not within brackets and binds least, if there is one.  Brackets may be
      put around anything and have to be where precedence asks for them. *)
  Inductive writes : tree A Op -> list token -> option Op -> Prop :=
  | wr_atom a : writes (Leaf a) [Atom a] None
  | wr_brackets e cs o : writes e cs o -> writes e (Open :: cs ++ [Close]) None
  | wr_node l o r cl cr ol or :
      writes l cl ol -> writes r cr or ->
      (forall c, ol = Some c -> left_ok c o) -> (forall c, or = Some c -> right_ok c o) ->
      writes (Node l o r) (cl ++ Sym o :: cr) (Some o).

  Definition means (cs : list token) (e : tree A Op) : Prop := exists o, writes e cs o.

  (** Brackets only where they have to be. *)
  Definition stands_left (child parent : Op) : bool :=
    (precedence parent <? precedence child) ||
    ((precedence parent =? precedence child) && match associativity child with Left => true | Right => false end).
  Definition stands_right (child parent : Op) : bool :=
    (precedence parent <? precedence child) ||
    ((precedence parent =? precedence child) && match associativity parent with Left => false | Right => true end).
  Fixpoint show (e : tree A Op) : list token :=
    match e with
    | Leaf a => [Atom a]
    | Node l o r =>
        (if match root l with Some c => stands_left c o | None => true end then show l else Open :: show l ++ [Close]) ++
        Sym o ::
        (if match root r with Some c => stands_right c o | None => true end then show r else Open :: show r ++ [Close])
    end.

  (** No operator comes next. *)
  Definition no_operator (r : list token) : Prop :=
    match r with Sym _ :: _ => False | _ => True end.
End Texts.
Arguments token A Op : clear implicits.

(** A parser of one kind of token over any sequence that shows tokens. *)
Definition lexes {S O E Tok} `{ParseError E} (tokens : S -> list Tok) (p : dparser S O E) (pick : Tok -> option O) : Prop :=
  forall s,
    let misses := exists e l, parse p s = Ret (Err e l) /\ should_terminate e = false in
    match tokens s with
    | [] => misses
    | t :: l =>
        match pick t with
        | Some o => exists s', parse p s = Ret (Ok o s') /\ tokens s' = l
        | None => misses
        end
    end.

Section Parser.
  Context {S An : Type} {RS : RewindSequence S An}.
  Context {A Op EA EO EB EC : Type} {OP : Operator Op} {PA : ParseError EA} {PO : ParseError EO} {PB : ParseError EB} {PC : ParseError EC}.
  Variable atom : dparser S A EA.
  Variable op : dparser S Op EO.
  Variable opening : dparser S unit EB.
  Variable closing : dparser S unit EC.
  Variables (usize_max : nat) (overflow_checks : bool) (fuel : nat).

  Definition of_term (t : Either A (tree A Op)) : tree A Op :=
    match t with First a => Leaf a | Last e => e end.

  (** term = atom / '(' expr ')' *)
  Definition term (expr : dparser S (tree A Op) (Miss unit)) : dparser S (Either A (tree A Op)) (Miss unit) :=
    MapErr (Or atom (Map (Join (Join opening expr) closing) (fun '((_, e), _) => e))) (fun _ => MkMiss tt).

  (** expr = term (op term)*, to depth [d] of brackets *)
  Fixpoint expr (d : nat) : dparser S (tree A Op) (Miss unit) :=
    match d with
    | 0 => DP (fun _ => OutOfFuel) (fun _ => OutOfFuel)
    | Datatypes.S d =>
        MapErr (Map (BinExpr of_term Node usize_max overflow_checks fuel (term (expr d)) op) fst) (fun _ => MkMiss tt)
    end.
End Parser.
