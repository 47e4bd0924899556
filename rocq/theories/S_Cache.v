(** * S_Cache: the texts of the expressions of example/src/cache.rs, without
    saying how they are parsed.  [spaces], [lawful_positions] and [pieces] are
    those of S_Example. *)
From Verif Require Export S_Example.
From Verif Require Export M_Cache.

Definition symbol (o : Op) : char :=
  match o with Add => 43 | Sub => 45 | Mul => 42 | Div => 47 end%N.

(** How tightly an operator and an expression hold together. *)
Definition strength (o : Op) : nat := match o with Add | Sub => 0 | Mul | Div => 1 end.
Definition tightness (e : Expr) : nat :=
  match e with BinOp _ o _ => strength o | ETerm _ => 2 end.

(** [writes e cs]: the text [cs] is a way of writing [e]. *)
Inductive writes : Expr -> list char -> Prop :=
| w_zero : writes (ETerm Zero) [48%N]
| w_paren e cs : writes e cs -> writes (ETerm (Parenthesized e)) ([40%N] ++ cs ++ [41%N])
| w_bin l o r cl cr sp sp' :
    writes l cl -> writes r cr -> spaces sp -> spaces sp' ->
    strength o <= tightness l -> strength o < tightness r ->
    writes (BinOp l o r) (cl ++ sp ++ [symbol o] ++ sp' ++ cr).

(** What may follow an expression: nothing, or a character that does not
    introduce an operator. *)
Definition closed (rest : list char) : Prop :=
  match rest with [] => True | c :: _ => c <> 32%N end.

(** Where a text breaks the parser: a character outside ASCII where a term or
    a closing parenthesis belongs. *)
Inductive term_breaks : list char -> Prop :=
| tb_wide c rest : (128 <= c)%N -> term_breaks (c :: rest)
| tb_inside cs : breaks cs -> term_breaks (40%N :: cs)
| tb_close e cs c rest : writes e cs -> (128 <= c)%N -> term_breaks (40%N :: cs ++ c :: rest)
with breaks : list char -> Prop :=
| b_term cs : term_breaks cs -> breaks cs
| b_after t ct sp o sp' cs : writes (ETerm t) ct -> spaces sp -> spaces sp' -> breaks cs ->
    breaks (ct ++ sp ++ [symbol o] ++ sp' ++ cs).

(** Some expression is written at the start of the text. *)
Definition starts_expression (cs : list char) : Prop :=
  exists e a b, cs = a ++ b /\ writes e a.

(** The inputs of the example: [n] opening parentheses, "0", [n] closing ones
    (cache.rs:29-36). *)
Definition nested_text (n : nat) : list char := repeat 40%N n ++ [48%N] ++ repeat 41%N n.
Fixpoint nested (n : nat) : Expr :=
  match n with 0 => ETerm Zero | Datatypes.S n => ETerm (Parenthesized (nested n)) end.
