(** * S_Pipe: when one iterative parser may stand for another. *)
From Verif Require Export M_Base M_Comb M_Iter.

(** What a session answers when it is asked at [inputs], one after the other.
    Whoever asks is free to ask anywhere.  With [past] they go on asking after
    the end and after errors; without, the first of these is the last answer. *)
Definition goes_on {S O E} (past : bool) (r : res S (option O) E) : bool :=
  match r with Ok (Some _) _ => true | _ => past end.
Fixpoint answers {St S O E} (past : bool) (p : M_Iter.iter St S O E) (st : St) (inputs : list S)
  : list (comp (res S (option O) E)) :=
  match inputs with
  | [] => []
  | i :: rest =>
      match it_next p st i with
      | Ret (st', r) => Ret r :: (if goes_on past r then answers past p st' rest else [])
      | Panic => [Panic]
      | UB => [UB]
      | OutOfFuel => [OutOfFuel]
      end
  end.

(** Nobody can tell them apart, or nobody who stops at the end. *)
Definition same_answers {St1 St2 S O E} (past : bool) (p : M_Iter.iter St1 S O E) (q : M_Iter.iter St2 S O E) : Prop :=
  forall inputs, answers past p (it_init p) inputs = answers past q (it_init q) inputs.
Definition same_pipe {St1 St2 S O E} (past : bool) (p : diter St1 S O E) (q : diter St2 S O E) : Prop :=
  same_answers past (parse_iterative p) (parse_iterative q) /\
  same_answers past (parse_iterative_once p) (parse_iterative_once q).
Definition interchangeable {St1 St2 S O E} (p : diter St1 S O E) (q : diter St2 S O E) : Prop := same_pipe true p q.
Definition same_to_the_end {St1 St2 S O E} (p : diter St1 S O E) (q : diter St2 S O E) : Prop := same_pipe false p q.
