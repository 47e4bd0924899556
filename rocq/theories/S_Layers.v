(** * S_Layers: operator expressions the way grammars are usually written, one
    rule for each precedence, with the crate's other combinators. *)
From Verif Require Export S_BinExpr M_Comb.

Set Implicit Arguments.

Section Layers.
  Context {S A : Type} {RS : RewindSequence S A}.
  Context {T TE Op OE Expr : Type} {PT : ParseError TE} {PO : ParseError OE} {OP : Operator Op}.
  Variable from_term : T -> Expr.
  Variable from_bin : Expr -> Op -> Expr -> Expr.

  (** [x o y o z] of operators of one precedence. *)
  Fixpoint to_left (x : Expr) (l : list (Op * Expr)) : Expr :=
    match l with
    | [] => x
    | (o, y) :: l => to_left (from_bin x o y) l
    end.
  Fixpoint to_right (x : Expr) (l : list (Op * Expr)) : Expr :=
    match l with
    | [] => x
    | (o, y) :: l => from_bin x o (to_right y l)
    end.
  Definition grouped (a : Associativity) : Expr -> list (Op * Expr) -> Expr :=
    match a with Left => to_left | Right => to_right end.

  Definition layer_error : Type := Either (option OE) TE.
  Definition merged (e : Either layer_error (Either (option OE) layer_error)) : layer_error :=
    match e with
    | First e => e
    | Last (First e) => First e
    | Last (Last e) => e
    end.

  Variable fuel : nat.
  Variable term : dparser S T TE.
  Variable op : dparser S Op OE.
  (** How the operators of a precedence group. *)
  Variable side : nat -> Associativity.

  (** An operator of precedence [k]. *)
  Definition only (k : nat) : dparser S Op (option OE) :=
    AndThen Some op (fun o => if precedence o =? k then ROk o else RErr None).

  (** expr(k) = expr(k+1) (op(k) expr(k+1))*, and below [d] of these the term. *)
  Fixpoint layer (d k : nat) : dparser S Expr layer_error :=
    match d with
    | 0 => MapErr (Map term from_term) (fun e => Last e)
    | Datatypes.S d =>
        MapErr (Map (Join (layer d (k + 1)) (Repeat fuel (Join (only k) (layer d (k + 1)))))
                    (fun '(x, (l, _)) => grouped (side k) x l)) merged
    end.
End Layers.

(** What BinExprParser answers, in the types of the layers. *)
Definition as_layers {S Expr OE TE} (v : verdict S (Expr * Either OE TE) (Either OE TE))
  : verdict S Expr (Either (option OE) TE) :=
  let re e := match e with First e => First (Some e) | Last e => Last e end in
  match v with
  | Succ (x, _) r => Succ x r
  | Missed e => Missed (re e)
  | Cut e => Cut (re e)
  | Crash k => Crash k
  end.
