(** * S_Work: counting the moves a parser makes. *)
From Verif Require Export S_Calls S_Example.

Set Implicit Arguments.

(** Going on by some bytes, and going back to an anchor. *)
Inductive move := Forth | Back.
#[export] Instance marks_move {S} : Marks S move := fun _ => [Back].

(** A text that carries the list of moves made so far. *)
#[export] Instance counted_text {S} `{Sequence S str} : Sequence (S * list move) str := {
  segments x := segments (fst x);
  advance x n := match advance (fst x) n with
                 | Ret s => Ret (s, snd x ++ [Forth])
                 | Panic => Panic
                 | UB => UB
                 | OutOfFuel => OutOfFuel
                 end
}.

(** A parser that goes on once if it succeeds and does not move if it fails. *)
Definition moves {S O E} (p : pfun S O E) : record_of S move :=
  fun s ms => ms = match p s with Ret (Ok _ _) => [Forth] | _ => [] end.

Definition is_digit (c : char) : bool := ((48 <=? c) && (c <=? 57))%N.
(** How many digits a text has. *)
Definition digits_in (cs : list char) : nat := length (filter is_digit cs).

(** How many operators, pairs of parentheses and numbers an expression has. *)
Fixpoint operators (e : Expr) : nat :=
  match e with BinOp l _ r => operators l + 1 + operators r | ETerm t => operators_term t end
with operators_term (t : Term) : nat := match t with Parenthesized e => operators e | Integer _ => 0 end.
Fixpoint parentheses (e : Expr) : nat :=
  match e with BinOp l _ r => parentheses l + parentheses r | ETerm t => parentheses_term t end
with parentheses_term (t : Term) : nat := match t with Parenthesized e => 1 + parentheses e | Integer _ => 0 end.
Fixpoint numbers (e : Expr) : nat :=
  match e with BinOp l _ r => numbers l + numbers r | ETerm t => numbers_term t end
with numbers_term (t : Term) : nat := match t with Parenthesized e => numbers e | Integer _ => 1 end.
