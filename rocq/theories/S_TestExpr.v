(** * S_TestExpr: the texts of the expressions of the unit tests of bin_expr.rs,
    without saying how they are parsed.  [spaces], [lawful_positions] and
    [pieces] are those of S_Example. *)
From Verif Require Export S_Example.
From Verif Require Export M_TestExpr.

Definition symbol (o : Op) : char :=
  match o with Add => 43 | Sub => 45 | Mul => 42 | Div => 47 | Til => 126 end%N.

(** How tightly an operator and an expression hold together. *)
Definition strength (o : Op) : nat := match o with Til => 0 | Add | Sub => 1 | Mul | Div => 2 end.
Definition tightness (e : Expr) : nat :=
  match e with BinOp _ o _ => strength o | ETerm _ => 3 end.

(** What may stand on either side of an operator without parentheses: [~] groups
    to the right, the others to the left. *)
Definition stands_left (e : Expr) (o : Op) : Prop :=
  match o with Til => strength o < tightness e | _ => strength o <= tightness e end.
Definition stands_right (e : Expr) (o : Op) : Prop :=
  match o with Til => strength o <= tightness e | _ => strength o < tightness e end.

(** [writes e cs]: the text [cs] is a way of writing [e]. *)
Inductive writes : Expr -> list char -> Prop :=
| w_zero : writes (ETerm Zero) [48%N]
| w_paren e cs : writes e cs -> writes (ETerm (Parenthesized e)) ([40%N] ++ cs ++ [41%N])
| w_bin l o r cl cr sp sp' :
    writes l cl -> writes r cr -> spaces sp -> spaces sp' ->
    stands_left l o -> stands_right r o ->
    writes (BinOp l o r) (cl ++ sp ++ [symbol o] ++ sp' ++ cr).

(** What may follow an expression: nothing, or a character that does not
    introduce an operator. *)
Definition closed (rest : list char) : Prop :=
  match rest with [] => True | c :: _ => c <> 32%N end.

(** No term and no further space starts here. *)
Definition no_term (rest : list char) : Prop :=
  match rest with [] => True | c :: _ => (c < 128)%N /\ c <> 32%N /\ c <> 40%N /\ c <> 48%N end.

(** Where a text breaks the parser: a character outside ASCII where a term or
    a closing parenthesis belongs. *)
Inductive term_breaks : list char -> Prop :=
| tb_wide c rest : (128 <= c)%N -> term_breaks (c :: rest)
| tb_inside cs : breaks cs -> term_breaks (40%N :: cs)
| tb_close e cs c rest : writes e cs -> (128 <= c)%N -> term_breaks (40%N :: cs ++ c :: rest)
with breaks : list char -> Prop :=
| b_term cs : term_breaks cs -> breaks cs
| b_after t ct sp o sp' cs : writes (ETerm t) ct -> spaces sp -> spaces sp' -> breaks cs ->
    breaks (ct ++ sp ++ [symbol o] ++ sp' ++ cs).

(** Some expression is written at the start of the text. *)
Definition starts_expression (cs : list char) : Prop :=
  exists e a b, cs = a ++ b /\ writes e a.

(** The inputs of the tests: "0" and [n] times " ~ 0" (bin_expr.rs:173-177),
    and the expression they stand for. *)
Definition chained_text (n : nat) : list char := [48%N] ++ concat (repeat [32; 126; 32; 48]%N n).
Fixpoint chained (n : nat) : Expr :=
  match n with 0 => ETerm Zero | Datatypes.S n => BinOp (ETerm Zero) Til (chained n) end.
