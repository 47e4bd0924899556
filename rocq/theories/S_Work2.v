(** * S_Work2: the size of the expressions of example/src/cache.rs. *)
From Verif Require Export S_Work S_Cache.
From Verif Require M_Cache.
Import M_Cache.

(** How many operators and pairs of parentheses an expression has. *)
Fixpoint operators (e : Expr) : nat :=
  match e with BinOp l _ r => operators l + 1 + operators r | ETerm t => operators_term t end
with operators_term (t : Term) : nat := match t with Parenthesized e => operators e | Zero => 0 end.
Fixpoint parentheses (e : Expr) : nat :=
  match e with BinOp l _ r => parentheses l + parentheses r | ETerm t => parentheses_term t end
with parentheses_term (t : Term) : nat := match t with Parenthesized e => 1 + parentheses e | Zero => 0 end.
