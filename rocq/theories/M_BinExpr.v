(** * M_BinExpr: crates/parcom-parsers/src/combinator/bin_expr.rs.
    Model only; no proofs.  Simplifications: the operand stack
    [ShortVec<_, 4>] is a list with its top first (with its memory it is
    M_BinExprMem.v, and C106 relates the two); [usize] is [nat] with the explicit
    bound [usize_max]; the loop takes fuel, one unit per operator. *)
From Verif Require Export M_Base M_Comb.

Set Implicit Arguments.

(** bin_expr.rs:6-9 *)
Inductive Associativity := Left | Right.

(** bin_expr.rs:11-14 *)
Class Operator (Op : Type) : Type := {
  precedence : Op -> nat;
  associativity : Op -> Associativity
}.

Section BinExpr.
  Context {S A : Type} {RS : RewindSequence S A}.
  Context {T TE Op OE Expr : Type} `{ParseError TE} `{ParseError OE} `{Operator Op}.
  (** [Expr: From<(Expr, Op, Expr)> + From<Term>] *)
  Variable from_term : T -> Expr.
  Variable from_bin : Expr -> Op -> Expr -> Expr.
  (** The largest [usize], and whether arithmetic overflow panics (debug
      builds) or wraps (release builds). *)
  Variable usize_max : nat.
  Variable overflow_checks : bool.

  (** bin_expr.rs:154-159 *)
  Definition next_precedence (op : Op) : comp nat :=
    match associativity op with
    | Left =>
        if precedence op <? usize_max then Ret (precedence op + 1)
        else if overflow_checks then Panic else Ret 0
    | Right => Ret (precedence op)
    end.

  (** The inner [loop] of bin_expr.rs:127-144. *)
  Fixpoint insert_loop (stack : list (Expr * Op)) (rhs : Expr) (op : Op) (term : Expr)
    : comp (list (Expr * Op) * Expr) :=
    match stack with
    | [] => Ret ([(rhs, op)], term)
    | (lhs, last_op) :: stack' =>
        prec <- next_precedence last_op ;;
        if prec <=? precedence op
        then Ret ((rhs, op) :: (lhs, last_op) :: stack', term)
        else insert_loop stack' (from_bin lhs last_op rhs) op term
    end.

  (** The [while let] of bin_expr.rs:147-149. *)
  Fixpoint reduce_all (stack : list (Expr * Op)) (rhs : Expr) : Expr :=
    match stack with
    | [] => rhs
    | (lhs, op) :: stack' => reduce_all stack' (from_bin lhs op rhs)
    end.

  (** The outer [loop] of bin_expr.rs:101-145 and what follows it (147-151). *)
  Fixpoint bin_loop (fuel : nat) (parser_term : dparser S T TE) (parser_op : dparser S Op OE)
    (prec : nat) (stack : list (Expr * Op)) (rhs : Expr) (rest : S)
    : comp (res S (Expr * result (Op * A) (Either OE TE)) (Either OE TE)) :=
    match fuel with
    | 0 => OutOfFuel
    | Datatypes.S fuel' =>
        let anc := anchor rest in
        o <- parse parser_op rest ;;
        match o with
        | Ok op r =>
            if prec <=? precedence op then
              t <- parse parser_term r ;;
              match t with
              | Ok term r =>
                  '(stack', rhs') <- insert_loop stack rhs op (from_term term) ;;
                  bin_loop fuel' parser_term parser_op prec stack' rhs' r
              | Err e r =>
                  if negb (should_terminate e) then
                    rest' <- rewind r anc ;;
                    done (reduce_all stack rhs, RErr (Last e)) rest'
                  else fail (Last e) r
              end
            else done (reduce_all stack rhs, ROk (op, anc)) r
        | Err e r =>
            if should_terminate e then fail (First e) r
            else
              rest' <- rewind r anc ;;
              done (reduce_all stack rhs, RErr (First e)) rest'
        end
    end.

  (** bin_expr.rs:78-152 *)
  Definition parse_impl (fuel : nat) (parser_term : dparser S T TE) (parser_op : dparser S Op OE)
    (input : S) (prec : nat)
    : comp (res S (Expr * result (Op * A) (Either OE TE)) (Either OE TE)) :=
    r <- parse parser_term input ;;
    match r with
    | Err e r => fail (Last e) r
    | Ok rhs rest => bin_loop fuel parser_term parser_op prec [] (from_term rhs) rest
    end.

  (** bin_expr.rs:52-58 *)
  Definition bin_expr_parse (fuel : nat) (parser_term : dparser S T TE) (parser_op : dparser S Op OE)
    : pfun S (Expr * Either OE TE) (Either OE TE) :=
    fun input =>
      r <- parse_impl fuel parser_term parser_op input 0 ;;
      match r with
      | Err e r => fail e r
      | Ok (e, reason) rest =>
          match reason with
          | RErr reason => done (e, reason) rest
          | ROk _ => Panic  (* unreachable!() *)
          end
      end.

  (** bin_expr.rs:28-42 ([parse_once] calls [parse]), 69-75 *)
  Definition BinExpr (fuel : nat) (parser_term : dparser S T TE) (parser_op : dparser S Op OE)
    : dparser S (Expr * Either OE TE) (Either OE TE) :=
    DP (bin_expr_parse fuel parser_term parser_op)
       (fun input => bin_expr_parse fuel parser_term parser_op input).
End BinExpr.
