(** * S_AsyncWait: which parts the loops run, and how often those are pending. *)
From Verif Require Import M_Async S_Async.

Set Implicit Arguments.

Section Waits.
  Context {S A : Type} {R : ARewindSequence S A}.

  (** [repeat] on [s], over a parser given by what it does: each item waits for the
      parser, and so does the last, failing attempt; then the rewind. *)
  Inductive repeat_waits {O E} `{ParseError E} (run : apfun S O E) : S -> nat -> Prop :=
  | RW_item s v r n :
      settled (run s) = Ret (Ok v r) -> repeat_waits run r n ->
      repeat_waits run s (pendings (run s) + n)
  | RW_cut s e r :
      settled (run s) = Ret (Err e r) -> should_terminate e = true ->
      repeat_waits run s (pendings (run s))
  | RW_back s e r :
      settled (run s) = Ret (Err e r) -> should_terminate e = false ->
      repeat_waits run s (pendings (run s) + pendings (a_rewind r (a_anchor s))).

  (** Driving a session; [tail] says what is waited for after the last call. *)
  Inductive session_waits {St O E} (next : St -> S -> task (St * res S (option O) E)) (tail : S -> S -> nat)
    : St -> S -> nat -> Prop :=
  | SW_item st s st' v r n :
      settled (next st s) = Ret (st', Ok (Some v) r) -> session_waits next tail st' r n ->
      session_waits next tail st s (pendings (next st s) + n)
  | SW_end st s st' r :
      settled (next st s) = Ret (st', Ok None r) ->
      session_waits next tail st s (pendings (next st s) + tail r s)
  | SW_err st s st' e r :
      settled (next st s) = Ret (st', Err e r) ->
      session_waits next tail st s (pendings (next st s) + tail r s).

  (** [bin_expr] behind a term: operator and term each time; an operator or a term
      that is not there ends it, with a rewind to before the operator unless the
      error is fatal. *)
  Inductive operands_wait {T TE Op OE} `{ParseError TE} `{ParseError OE} (term : apfun S T TE) (op : apfun S Op OE)
    : S -> nat -> Prop :=
  | OW_more s o r t r' n :
      settled (op s) = Ret (Ok o r) -> settled (term r) = Ret (Ok t r') -> operands_wait term op r' n ->
      operands_wait term op s (pendings (op s) + (pendings (term r) + n))
  | OW_op_cut s e r :
      settled (op s) = Ret (Err e r) -> should_terminate e = true ->
      operands_wait term op s (pendings (op s))
  | OW_op_back s e r :
      settled (op s) = Ret (Err e r) -> should_terminate e = false ->
      operands_wait term op s (pendings (op s) + pendings (a_rewind r (a_anchor s)))
  | OW_term_cut s o r e r' :
      settled (op s) = Ret (Ok o r) -> settled (term r) = Ret (Err e r') -> should_terminate e = true ->
      operands_wait term op s (pendings (op s) + pendings (term r))
  | OW_term_back s o r e r' :
      settled (op s) = Ret (Ok o r) -> settled (term r) = Ret (Err e r') -> should_terminate e = false ->
      operands_wait term op s (pendings (op s) + (pendings (term r) + pendings (a_rewind r' (a_anchor s)))).
End Waits.
