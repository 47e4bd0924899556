(** * M_BinExprMem: crates/parcom-parsers/src/combinator/bin_expr.rs once more,
    with the memory of its [ShortVec<_, 4>] (M_ShortVec) in place of the list
    of M_BinExpr.  Model only; no proofs.
    A run gives the memory the vector leaves behind and what the caller sees.
    The vector is dropped on every way out: at the end, at the two [return
    fail] and when something called here unwinds.  Simplifications: as in
    M_ShortVec and M_BinExpr; a [push] that cannot have the capacity it needs
    is [Panic] and what is dropped then is not followed (C93 does). *)
From Verif Require Export M_BinExpr M_ShortVec.

Set Implicit Arguments.

Section BinExprMem.
  Context {S A : Type} {RS : RewindSequence S A}.
  Context {T TE Op OE Expr : Type} `{ParseError TE} `{ParseError OE} `{Operator Op}.
  Variable from_term : T -> Expr.
  Variable from_bin : Expr -> Op -> Expr -> Expr.
  Variable usize_max : nat.
  Variable overflow_checks : bool.
  (** [size_of::<(Expr, Op)>()] and [isize::MAX]. *)
  Variable size_of : nat.
  Variable isize_max : nat.

  (** bin_expr.rs:99 *)
  Definition inline : nat := 4.
  Definition vector : Type := ShortVec (Expr * Op) * mem (Expr * Op).
  Definition answer : Type := comp (res S (Expr * result (Op * A) (Either OE TE)) (Either OE TE)).

  (** Leaving with [r]: the vector goes out of scope. *)
  Definition leave (st : vector) (r : answer) : comp (mem (Expr * Op) * answer) :=
    m <- drop inline size_of isize_max (snd st) (fst st) ;; Ret (m, r).
  (** A call that may unwind while the vector is alive. *)
  Definition during {X} (st : vector) (c : comp X) (k : X -> comp (mem (Expr * Op) * answer))
    : comp (mem (Expr * Op) * answer) :=
    match c with
    | Ret x => k x
    | Panic => leave st Panic
    | UB => leave st UB
    | OutOfFuel => leave st OutOfFuel
    end.

  (** The inner [loop] of bin_expr.rs:127-144, one unit of [n] for each [pop];
      the second component is [Panic] if [next_precedence] does. *)
  Fixpoint insert_mem (n : nat) (st : vector) (rhs : Expr) (op : Op) (term : Expr) : comp (vector * comp Expr) :=
    match n with
    | 0 => OutOfFuel
    | Datatypes.S n' =>
        ' p <- pop inline (snd st) (fst st) ;;
        let st := (snd p, snd st) in
        match fst p with
        | None =>
            st <- push inline size_of isize_max (snd st) (fst st) (rhs, op) ;;
            Ret (st, Ret term)
        | Some (lhs, last_op) =>
            match next_precedence usize_max overflow_checks last_op with
            | Ret prec =>
                if prec <=? precedence op then
                  st <- push inline size_of isize_max (snd st) (fst st) (lhs, last_op) ;;
                  st <- push inline size_of isize_max (snd st) (fst st) (rhs, op) ;;
                  Ret (st, Ret term)
                else insert_mem n' st (from_bin lhs last_op rhs) op term
            | Panic => Ret (st, Panic)
            | UB => Ret (st, UB)
            | OutOfFuel => Ret (st, OutOfFuel)
            end
        end
    end.

  (** The [while let] of bin_expr.rs:147-149. *)
  Fixpoint reduce_mem (n : nat) (st : vector) (rhs : Expr) : comp (vector * Expr) :=
    match n with
    | 0 => OutOfFuel
    | Datatypes.S n' =>
        ' p <- pop inline (snd st) (fst st) ;;
        match fst p with
        | None => Ret ((snd p, snd st), rhs)
        | Some (lhs, op) => reduce_mem n' (snd p, snd st) (from_bin lhs op rhs)
        end
    end.
  (** bin_expr.rs:147-151 *)
  Definition finish (st : vector) (rhs : Expr) (reason : result (Op * A) (Either OE TE)) (rest : S)
    : comp (mem (Expr * Op) * answer) :=
    ' r <- reduce_mem (Datatypes.S (len (fst st))) st rhs ;;
    leave (fst r) (done (snd r, reason) rest).

  (** The outer [loop] of bin_expr.rs:101-145 and what follows it (147-151). *)
  Fixpoint bin_loop_mem (fuel : nat) (parser_term : dparser S T TE) (parser_op : dparser S Op OE)
    (prec : nat) (st : vector) (rhs : Expr) (rest : S) : comp (mem (Expr * Op) * answer) :=
    match fuel with
    | 0 => leave st OutOfFuel
    | Datatypes.S fuel' =>
        let anc := anchor rest in
        during st (parse parser_op rest) (fun o =>
        match o with
        | Ok op r =>
            if prec <=? precedence op then
              during st (parse parser_term r) (fun t =>
              match t with
              | Ok term r =>
                  ' p <- insert_mem (Datatypes.S (len (fst st))) st rhs op (from_term term) ;;
                  during (fst p) (snd p) (fun rhs' =>
                  bin_loop_mem fuel' parser_term parser_op prec (fst p) rhs' r)
              | Err e r =>
                  if negb (should_terminate e) then
                    during st (rewind r anc) (fun rest' => finish st rhs (RErr (Last e)) rest')
                  else leave st (fail (Last e) r)
              end)
            else finish st rhs (ROk (op, anc)) r
        | Err e r =>
            if should_terminate e then leave st (fail (First e) r)
            else during st (rewind r anc) (fun rest' => finish st rhs (RErr (First e)) rest')
        end)
    end.

  (** bin_expr.rs:78-152 *)
  Definition parse_impl_mem (fuel : nat) (parser_term : dparser S T TE) (parser_op : dparser S Op OE)
    (input : S) (prec : nat) : comp (mem (Expr * Op) * answer) :=
    match parse parser_term input with
    | Ret (Ok rhs rest) =>
        st <- new inline size_of isize_max mem_empty ;;
        bin_loop_mem fuel parser_term parser_op prec st (from_term rhs) rest
    | Ret (Err e r) => Ret (mem_empty, fail (Last e) r)
    | Panic => Ret (mem_empty, Panic)
    | UB => Ret (mem_empty, UB)
    | OutOfFuel => Ret (mem_empty, OutOfFuel)
    end.

  (** bin_expr.rs:52-58 *)
  Definition bin_expr_mem (fuel : nat) (parser_term : dparser S T TE) (parser_op : dparser S Op OE) (input : S)
    : comp (mem (Expr * Op) * comp (res S (Expr * Either OE TE) (Either OE TE))) :=
    ' x <- parse_impl_mem fuel parser_term parser_op input 0 ;;
    Ret (fst x,
      r <- snd x ;;
      match r with
      | Err e r => fail e r
      | Ok (e, reason) rest =>
          match reason with
          | RErr reason => done (e, reason) rest
          | ROk _ => Panic  (* unreachable!() *)
          end
      end).
End BinExprMem.
