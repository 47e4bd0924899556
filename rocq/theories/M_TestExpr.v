(** * M_TestExpr: the expression grammar in the unit tests of
    crates/parcom-parsers/src/combinator/bin_expr.rs.  Model only; no proofs.
    [budget] bounds every loop and [depth] the recursion between [expr] and
    [term], as in M_Example. *)
From Verif Require Export M_Comb M_Prim M_BinExpr.

Set Implicit Arguments.

(** bin_expr.rs:262-268 *)
Inductive Op := Add | Sub | Mul | Div | Til.

(** bin_expr.rs:270-287 *)
#[export] Instance op_operator : Operator Op := {
  precedence o := match o with Add => 1 | Sub => 1 | Mul => 2 | Div => 2 | Til => 0 end;
  associativity o := match o with Til => Right | _ => Left end
}.

(** bin_expr.rs:237-240, 256-259 *)
Inductive Expr :=
| ETerm (t : Term)
| BinOp (l : Expr) (o : Op) (r : Expr)
with Term :=
| Zero
| Parenthesized (e : Expr).

(** bin_expr.rs:242-246 and 248-252 *)
Definition expr_from_term (t : Term) : Expr := ETerm t.
Definition expr_from_bin (l : Expr) (o : Op) (r : Expr) : Expr := BinOp l o r.

Section Grammar.
  Context {S A : Type} {SQ : Sequence S str} {RS : RewindSequence S A}.
  (** The largest [usize], overflow checks in BinExprParser, loop budget. *)
  Variable usize_max : nat.
  Variable overflow_checks : bool.
  Variable budget : nat.

  (** bin_expr.rs:289-303 *)
  Definition space_parse : pfun S unit (Miss unit) :=
    fun input =>
      parse (AndThen (fun e => e)
               (Repeat budget (the_char 32%N))
               (fun '(v, _) => match v with [] => RErr (MkMiss tt) | _ => ROk tt end))
            input.
  Definition space : dparser S unit (Miss unit) := closure space_parse.

  (** bin_expr.rs:305-323 *)
  Definition op_parse : pfun S Op (Miss unit) :=
    fun input =>
      parse (AndThen (fun e => e) any_char
               (fun head =>
                  if (head =? 43)%N then ROk Add
                  else if (head =? 45)%N then ROk Sub
                  else if (head =? 42)%N then ROk Mul
                  else if (head =? 47)%N then ROk Div
                  else if (head =? 126)%N then ROk Til
                  else RErr (MkMiss tt)))
            input.
  Definition op : dparser S Op (Miss unit) := closure op_parse.

  (** bin_expr.rs:325-329 *)
  Definition zero_parse : pfun S unit (Miss unit) := fun input => parse (atom (Str [48%N])) input.
  Definition zero : dparser S unit (Miss unit) := closure zero_parse.

  (** bin_expr.rs:222-233, with [expr] given *)
  Definition term_parse (expr : pfun S Expr (Miss unit)) : pfun S Term (Miss unit) :=
    fun input =>
      parse (MapErr
               (Map
                  (Or zero
                     (Map (Join (Join (atom (Str [40%N])) (closure expr)) (atom (Str [41%N])))
                        (fun '((_, e), _) => e)))
                  (fun e => match e with
                            | First _ => Zero
                            | Last e => Parenthesized e
                            end))
               (fun _ => MkMiss tt))
            input.

  (** bin_expr.rs:213 *)
  Definition spaced_op : dparser S Op (Either (Either (Miss unit) (Miss unit)) (Miss unit)) :=
    Map (Join (Join space op) space) (fun '((_, op), _) => op).

  (** bin_expr.rs:210-219 *)
  Fixpoint expr_parse (depth : nat) : pfun S Expr (Miss unit) :=
    fun input =>
      match depth with
      | 0 => OutOfFuel
      | Datatypes.S depth' =>
          parse (Boxed
                   (MapErr
                      (Map
                         (BinExpr expr_from_term expr_from_bin usize_max overflow_checks budget
                            (closure (term_parse (expr_parse depth')))
                            spaced_op)
                         (fun '(e, _) => e))
                      (fun _ => MkMiss tt)))
                input
      end.
End Grammar.
