(** * M_Example: the expression grammar of example/src/bin_expr.rs.
    Model only; no proofs.  [usize] is [nat] with the bound [usize_max];
    [budget] bounds every loop and [depth] the recursion between [expr] and
    [term]. *)
From Verif Require Export M_Comb M_Prim M_BinExpr.

Set Implicit Arguments.

(** bin_expr.rs:132-138 *)
Inductive Op := Add | Sub | Mul | Div.

(** bin_expr.rs:140-153 *)
#[export] Instance op_operator : Operator Op := {
  precedence o := match o with Add => 1 | Sub => 1 | Mul => 2 | Div => 2 end;
  associativity o := Left
}.

(** bin_expr.rs:108-112, 126-130 *)
Inductive Expr :=
| BinOp (l : Expr) (o : Op) (r : Expr)
| ETerm (t : Term)
with Term :=
| Parenthesized (e : Expr)
| Integer (n : nat).

(** bin_expr.rs:114-118 and 120-124 *)
Definition expr_from_term (t : Term) : Expr := ETerm t.
Definition expr_from_bin (l : Expr) (o : Op) (r : Expr) : Expr := BinOp l o r.

(** [char::is_ascii_digit] and the value of such a digit. *)
Definition is_ascii_digit (c : char) : bool := ((48 <=? c) && (c <=? 57))%N.
Definition digit_value (c : char) : nat := N.to_nat (c - 48).

(** [Iterator::take_while] *)
Fixpoint take_while {T} (p : T -> bool) (l : list T) : list T :=
  match l with
  | [] => []
  | x :: l => if p x then x :: take_while p l else []
  end.

Section Grammar.
  Context {S A : Type} {SQ : Sequence S str} {RS : RewindSequence S A}.
  (** The largest [usize], overflow checks in BinExprParser, loop budget. *)
  Variable usize_max : nat.
  Variable overflow_checks : bool.
  Variable budget : nat.

  (** bin_expr.rs:155-163 *)
  Definition space_parse : pfun S unit (Miss unit) :=
    fun input =>
      parse (AndThen (fun e => e)
               (Repeat budget (the_char 32%N))
               (fun '(v, _) => match v with [] => RErr (MkMiss tt) | _ => ROk tt end))
            input.
  Definition space : dparser S unit (Miss unit) := closure space_parse.

  (** The loop of bin_expr.rs:168-181: the first char, if any. *)
  Fixpoint op_head (segs : list str) : option char :=
    match segs with
    | [] => None
    | segment :: segs' =>
        match chars segment with
        | c :: _ => Some c
        | [] => op_head segs'
        end
    end.

  (** bin_expr.rs:165-192 *)
  Definition op_parse : pfun S Op (Miss unit) :=
    fun input =>
      match op_head (segments input) with
      | None => fail (MkMiss tt) input
      | Some head =>
          match (if (head =? 43)%N then Some Add
                 else if (head =? 45)%N then Some Sub
                 else if (head =? 42)%N then Some Mul
                 else if (head =? 47)%N then Some Div
                 else None) with
          | None => fail (MkMiss tt) input
          | Some op => r <- advance input (len_utf8 head) ;; done op r
          end
      end.
  Definition op : dparser S Op (Miss unit) := closure op_parse.

  (** The [while let] loop of bin_expr.rs:201-219: the digits collected and the
      bytes they take.  [idx + c.len_utf8()] of the last digit is the length of
      the leading digits. *)
  Fixpoint integer_loop (segs : list str) (buf : list char) (consumed_bytes : nat)
    : list char * nat :=
    match segs with
    | [] => (buf, consumed_bytes)
    | segment :: segs' =>
        match take_while is_ascii_digit (chars segment) with
        | [] => (buf, consumed_bytes)
        | digits =>
            let consumed := chars_len digits in
            if consumed <? str_len segment
            then (buf ++ digits, consumed_bytes + consumed)
            else integer_loop segs' (buf ++ digits) (consumed_bytes + consumed)
        end
    end.

  (** [usize::from_str_radix(buf, 10).unwrap()] on ASCII digits: checked
      multiplication and addition per digit, an error when empty. *)
  Fixpoint from_digits (acc : nat) (buf : list char) : comp nat :=
    match buf with
    | [] => Ret acc
    | c :: buf =>
        if acc * 10 + digit_value c <=? usize_max
        then from_digits (acc * 10 + digit_value c) buf
        else Panic
    end.
  Definition from_str_radix_unwrap (buf : list char) : comp nat :=
    match buf with [] => Panic | _ => from_digits 0 buf end.

  (** bin_expr.rs:194-232 *)
  Definition integer_parse : pfun S nat (Miss unit) :=
    fun input =>
      let '(buf, consumed_bytes) := integer_loop (segments input) [] 0 in
      if consumed_bytes =? 0 then fail (MkMiss tt) input
      else
        n <- from_str_radix_unwrap buf ;;
        r <- advance input consumed_bytes ;;
        done n r.
  Definition integer : dparser S nat (Miss unit) := closure integer_parse.

  (** bin_expr.rs:55-68, with [expr] given *)
  Definition term_parse (expr : pfun S Expr (Miss unit)) : pfun S Term (Miss unit) :=
    fun input =>
      parse (MapErr
               (Map
                  (Or integer
                     (Map (Join (Join (atom (Str [40%N])) (closure expr)) (atom (Str [41%N])))
                        (fun '((_, e), _) => e)))
                  (fun e => match e with
                            | First n => Integer n
                            | Last e => Parenthesized e
                            end))
               (fun _ => MkMiss tt))
            input.

  (** bin_expr.rs:47 *)
  Definition spaced_op : dparser S Op (Either (Either (Miss unit) (Miss unit)) (Miss unit)) :=
    Map (Join (Join space op) space) (fun '((_, op), _) => op).

  (** bin_expr.rs:43-53 *)
  Fixpoint expr_parse (depth : nat) : pfun S Expr (Miss unit) :=
    fun input =>
      match depth with
      | 0 => OutOfFuel
      | Datatypes.S depth' =>
          parse (Boxed
                   (MapErr
                      (Map
                         (BinExpr expr_from_term expr_from_bin usize_max overflow_checks budget
                            (closure (term_parse (expr_parse depth')))
                            spaced_op)
                         (fun '(e, _) => e))
                      (fun _ => MkMiss tt)))
                input
      end.
End Grammar.

(** bin_expr.rs:70-87; [digits] is how [{n}] formats a [usize]. *)
Section Display.
  Variable digits : nat -> list char.
  Definition op_text (o : Op) : list char :=
    match o with
    | Add => [32; 43; 32] | Sub => [32; 45; 32] | Mul => [32; 42; 32] | Div => [32; 47; 32]
    end%N.
  Fixpoint display (e : Expr) : list char :=
    match e with
    | BinOp l o r => [40%N] ++ display l ++ op_text o ++ display r ++ [41%N]
    | ETerm t => display_term t
    end
  with display_term (t : Term) : list char :=
    match t with
    | Parenthesized e => display e
    | Integer n => digits n
    end.
End Display.

(** bin_expr.rs:89-106; [usize] arithmetic, which panics on overflow with
    overflow checks on and wraps with them off.  Division by zero always panics. *)
Section Eval.
  Variables (usize_max : nat) (overflow_checks : bool).
  Definition checked (n : nat) : comp nat :=
    if n <=? usize_max then Ret n
    else if overflow_checks then Panic else Ret (n mod S usize_max).
  Definition apply_op (o : Op) (l r : nat) : comp nat :=
    match o with
    | Add => checked (l + r)                                                  (* 95 *)
    | Sub => if r <=? l then Ret (l - r)                                      (* 96 *)
             else if overflow_checks then Panic else Ret (l + S usize_max - r)
    | Mul => checked (l * r)                                                  (* 97 *)
    | Div => if r =? 0 then Panic else Ret (l / r)                            (* 98 *)
    end.
  Fixpoint eval (e : Expr) : comp nat :=
    match e with
    | BinOp l o r =>
        l <- eval l ;;
        r <- eval r ;;
        apply_op o l r
    | ETerm t => eval_term t
    end
  with eval_term (t : Term) : comp nat :=
    match t with
    | Parenthesized e => eval e
    | Integer n => Ret n
    end.
End Eval.

(** bin_expr.rs:20-37, for any input: what is left, the text of the expression
    and its value, or nothing on an error; printing is left out. *)
Definition main_run {S A : Type} `{Sequence S str} `{RewindSequence S A} (digits : nat -> list char)
  (usize_max : nat) (overflow_checks : bool) (budget depth : nat) (input : S)
  : comp (option (S * list char * nat)) :=
  r <- expr_parse usize_max overflow_checks budget depth input ;;
  match r with
  | Ok e rest => n <- eval usize_max overflow_checks e ;; Ret (Some (rest, display digits e, n))
  | Err _ _ => Ret None
  end.
