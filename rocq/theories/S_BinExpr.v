(** * S_BinExpr: operator expressions, without saying how they are parsed. *)
From Verif Require Export S_Comb.
From Verif Require Import M_BinExpr.
Export M_BinExpr (Associativity(..), Operator(..), Left, Right, precedence, associativity).

Set Implicit Arguments.

Section Trees.
  Context {T Op : Type} `{Operator Op}.

  Inductive tree := Leaf (t : T) | Node (l : tree) (o : Op) (r : tree).

  (** Terms and operators from left to right: the first term, then pairs. *)
  Fixpoint reading (t : tree) : T * list (Op * T) :=
    match t with
    | Leaf t => (t, [])
    | Node l o r => (fst (reading l), snd (reading l) ++ (o, fst (reading r)) :: snd (reading r))
    end.

  Definition root (t : tree) : option Op :=
    match t with Leaf _ => None | Node _ o _ => Some o end.

  (** [child] may stand to the left of [parent] without parentheses ... *)
  Definition left_ok (child parent : Op) : Prop :=
    precedence parent < precedence child \/
    (precedence parent = precedence child /\ associativity child = Left).
  (** ... and to the right. *)
  Definition right_ok (child parent : Op) : Prop :=
    precedence parent < precedence child \/
    (precedence parent = precedence child /\ associativity parent = Right).

  (** Every operator is grouped as its children's precedences ask. *)
  Fixpoint respects (t : tree) : Prop :=
    match t with
    | Leaf _ => True
    | Node l o r =>
        respects l /\ respects r /\
        (forall c, root l = Some c -> left_ok c o) /\
        (forall c, root r = Some c -> right_ok c o)
    end.

  (** The value of a tree in an expression type. *)
  Fixpoint build {Expr} (from_term : T -> Expr) (from_bin : Expr -> Op -> Expr -> Expr) (t : tree) : Expr :=
    match t with
    | Leaf t => from_term t
    | Node l o r => from_bin (build from_term from_bin l) o (build from_term from_bin r)
    end.

  (** What an operator-expression parser should do: a term, then as many
      (operator term) pairs as possible, grouped into a tree. *)
  Inductive operator_expression {S TE OE Expr} (from_term : T -> Expr) (from_bin : Expr -> Op -> Expr -> Expr)
    (term : behaviour S T TE) (op : behaviour S Op OE)
    : behaviour S (Expr * Either OE TE) (Either OE TE) :=
  | oe_ok s t m ps e r tr :
      term s (Succ t m) -> repetition (sequence op term) m (Succ (ps, e) r) ->
      reading tr = (t, ps) -> respects tr ->
      operator_expression from_term from_bin term op s (Succ (build from_term from_bin tr, e) r)
  | oe_miss s e : term s (Missed e) -> operator_expression from_term from_bin term op s (Missed (Last e))
  | oe_cut s e : term s (Cut e) -> operator_expression from_term from_bin term op s (Cut (Last e))
  | oe_crash s k : term s (Crash k) -> operator_expression from_term from_bin term op s (Crash k)
  | oe_cut2 s t m e : term s (Succ t m) -> repetition (sequence op term) m (Cut e) ->
      operator_expression from_term from_bin term op s (Cut e)
  | oe_crash2 s t m k : term s (Succ t m) -> repetition (sequence op term) m (Crash k) ->
      operator_expression from_term from_bin term op s (Crash k).
End Trees.
Arguments tree T Op : clear implicits.
