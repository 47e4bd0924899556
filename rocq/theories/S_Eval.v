(** * S_Eval: the value of an expression, in the integers. *)
From Coq Require Import ZArith.
From Verif Require Export S_Example.

(** Arithmetic without bounds; division of natural numbers, rounding down. *)
Inductive denotes : Expr -> Z -> Prop :=
| d_integer n : denotes (ETerm (Integer n)) (Z.of_nat n)
| d_paren e z : denotes e z -> denotes (ETerm (Parenthesized e)) z
| d_add l r x y : denotes l x -> denotes r y -> denotes (BinOp l Add r) (x + y)
| d_sub l r x y : denotes l x -> denotes r y -> denotes (BinOp l Sub r) (x - y)
| d_mul l r x y : denotes l x -> denotes r y -> denotes (BinOp l Mul r) (x * y)
| d_div l r x y z m : denotes l x -> denotes r y -> (x = y * z + m)%Z -> (0 <= m < y)%Z ->
    denotes (BinOp l Div r) z.

(** The expressions inside an expression, itself among them. *)
Inductive part : Expr -> Expr -> Prop :=
| part_self e : part e e
| part_paren p e : part p e -> part p (ETerm (Parenthesized e))
| part_left p l o r : part p l -> part p (BinOp l o r)
| part_right p l o r : part p r -> part p (BinOp l o r).

(** Every intermediate result exists and is a [usize]. *)
Definition representable (max : nat) (e : Expr) : Prop :=
  forall p, part p e -> exists z, denotes p z /\ (0 <= z <= Z.of_nat max)%Z.

(** Arithmetic where each result is reduced modulo [max + 1]. *)
Inductive residue (max : nat) : Expr -> Z -> Prop :=
| r_integer n : residue max (ETerm (Integer n)) (Z.of_nat n)
| r_paren e z : residue max e z -> residue max (ETerm (Parenthesized e)) z
| r_add l r x y : residue max l x -> residue max r y ->
    residue max (BinOp l Add r) ((x + y) mod (Z.of_nat max + 1))
| r_sub l r x y : residue max l x -> residue max r y ->
    residue max (BinOp l Sub r) ((x - y) mod (Z.of_nat max + 1))
| r_mul l r x y : residue max l x -> residue max r y ->
    residue max (BinOp l Mul r) ((x * y) mod (Z.of_nat max + 1))
| r_div l r x y z m : residue max l x -> residue max r y -> (x = y * z + m)%Z -> (0 <= m < y)%Z ->
    residue max (BinOp l Div r) z.

(** No division anywhere. *)
Definition no_division (e : Expr) : Prop := forall l r, ~ part (BinOp l Div r) e.
