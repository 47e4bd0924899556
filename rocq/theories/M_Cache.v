(** * M_Cache: the expression grammar of example/src/cache.rs.
    Model only; no proofs.  [budget] bounds every loop and [depth] the recursion
    between [expr] and [term], as in M_Example.  The [main] of that file calls
    [expr] without awaiting it and measures time; it is not modelled. *)
From Verif Require Export M_Comb M_Prim M_BinExpr.

Set Implicit Arguments.

(** cache.rs:133-139 *)
Inductive Op := Add | Sub | Mul | Div.

(** cache.rs:141-154 *)
#[export] Instance op_operator : Operator Op := {
  precedence o := match o with Add => 0 | Sub => 0 | Mul => 1 | Div => 1 end;
  associativity o := Left
}.

(** cache.rs:107-112, 126-131 *)
Inductive Expr :=
| BinOp (l : Expr) (o : Op) (r : Expr)
| ETerm (t : Term)
with Term :=
| Zero
| Parenthesized (e : Expr).

(** cache.rs:114-118 and 120-124 *)
Definition expr_from_term (t : Term) : Expr := ETerm t.
Definition expr_from_bin (l : Expr) (o : Op) (r : Expr) : Expr := BinOp l o r.

Section Grammar.
  Context {S A : Type} {SQ : Sequence S str} {RS : RewindSequence S A}.
  (** The largest [usize], overflow checks in BinExprParser, loop budget. *)
  Variable usize_max : nat.
  Variable overflow_checks : bool.
  Variable budget : nat.

  (** cache.rs:155-163 *)
  Definition space_parse : pfun S unit (Miss unit) :=
    fun input =>
      parse (AndThen (fun e => e)
               (Repeat budget (the_char 32%N))
               (fun '(v, _) => match v with [] => RErr (MkMiss tt) | _ => ROk tt end))
            input.
  Definition space : dparser S unit (Miss unit) := closure space_parse.

  (** cache.rs:165-182 *)
  Definition op_parse : pfun S Op (Miss unit) :=
    fun input =>
      parse (AndThen (fun e => e) any_char
               (fun head =>
                  if (head =? 43)%N then ROk Add
                  else if (head =? 45)%N then ROk Sub
                  else if (head =? 42)%N then ROk Mul
                  else if (head =? 47)%N then ROk Div
                  else RErr (MkMiss tt)))
            input.
  Definition op : dparser S Op (Miss unit) := closure op_parse.

  (** cache.rs:184-188 *)
  Definition zero_parse : pfun S unit (Miss unit) := fun input => parse (the_char 48%N) input.
  Definition zero : dparser S unit (Miss unit) := closure zero_parse.

  (** cache.rs:93-105, with [expr] given *)
  Definition term_parse (expr : pfun S Expr (Miss unit)) : pfun S Term (Miss unit) :=
    fun input =>
      parse (MapErr
               (Map
                  (Or zero
                     (Map (Join (Join (atom (Str [40%N])) (closure expr)) (atom (Str [41%N])))
                        (fun '((_, e), _) => e)))
                  (fun e => match e with
                            | First _ => Zero
                            | Last e => Parenthesized e
                            end))
               (fun _ => MkMiss tt))
            input.

  (** cache.rs:85 *)
  Definition spaced_op : dparser S Op (Either (Either (Miss unit) (Miss unit)) (Miss unit)) :=
    Map (Join (Join space op) space) (fun '((_, op), _) => op).

  (** cache.rs:81-91 *)
  Fixpoint expr_parse (depth : nat) : pfun S Expr (Miss unit) :=
    fun input =>
      match depth with
      | 0 => OutOfFuel
      | Datatypes.S depth' =>
          parse (Boxed
                   (MapErr
                      (Map
                         (BinExpr expr_from_term expr_from_bin usize_max overflow_checks budget
                            (closure (term_parse (expr_parse depth')))
                            spaced_op)
                         (fun '(e, _) => e))
                      (fun _ => MkMiss tt)))
                input
      end.
End Grammar.
