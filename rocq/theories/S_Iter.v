(** * S_Iter: what a run of an iterative parser looks like to its caller. *)
From Verif Require Export S_Comb M_Iter.

Set Implicit Arguments.

(** Successive calls that each produce an item, each call being given the
    position the previous one left: the items, each with the position after it. *)
Inductive yields {St S O E} (it : iter St S O E) : St -> S -> list (O * S) -> St -> S -> Prop :=
| y_nil st s : yields it st s [] st s
| y_cons st s v st1 s1 l st' s' :
    it_next it st s = Ret (st1, Ok (Some v) s1) -> yields it st1 s1 l st' s' ->
    yields it st s ((v, s1) :: l) st' s'.

(** How a run stops: the position [from] at which the last call was made, and
    what that call did. *)
Inductive ending (S E : Type) : Type :=
| Ended (from rest : S)
| Failed (from : S) (e : E) (loc : S)
| Crashed (from : S) (k : crash).
Arguments Ended {S E} _ _.
Arguments Failed {S E} _ _ _.
Arguments Crashed {S E} _ _.

Definition stops {St S O E} (it : iter St S O E) (st : St) (s : S) (w : ending S E) : Prop :=
  match w with
  | Ended from rest => from = s /\ exists st', it_next it st s = Ret (st', Ok None rest)
  | Failed from e loc => from = s /\ exists st', it_next it st s = Ret (st', Err e loc)
  | Crashed from CPanic => from = s /\ it_next it st s = Panic
  | Crashed from CUB => from = s /\ it_next it st s = UB
  | Crashed from CFuel => from = s /\ it_next it st s = OutOfFuel
  end.

(** A whole run from [s]. *)
Definition run {St S O E} (it : iter St S O E) (s : S) (l : list (O * S)) (w : ending S E) : Prop :=
  exists st' s', yields it (it_init it) s l st' s' /\ stops it st' s' w.

(** The items without the positions. *)
Definition items {O S} (l : list (O * S)) : list O := map fst l.

(** Calls with arbitrary positions, whatever the results were; a crash stops. *)
Inductive answer (S O E : Type) : Type := Answer (r : res S (option O) E) | Died (k : crash).
Arguments Answer {S O E} _.
Arguments Died {S O E} _.
Fixpoint calls {St S O E} (it : iter St S O E) (st : St) (ins : list S) : list (answer S O E) :=
  match ins with
  | [] => []
  | s :: ins =>
      match it_next it st s with
      | Ret (st', r) => Answer r :: calls it st' ins
      | Panic => [Died CPanic]
      | UB => [Died CUB]
      | OutOfFuel => [Died CFuel]
      end
  end.

(** Two sessions no caller can tell apart. *)
Definition same_calls {St1 St2 S O E} (a : iter St1 S O E) (b : iter St2 S O E) : Prop :=
  forall ins, calls a (it_init a) ins = calls b (it_init b) ins.
(** Consuming and borrowing an iterative parser start such sessions. *)
Definition coherent_iter {St S O E} (p : diter St S O E) : Prop :=
  same_calls (parse_iterative p) (parse_iterative_once p).

(** Every call only advances. *)
Definition forward_iter {St S O E} (reach : S -> S -> Prop) (it : iter St S O E) : Prop :=
  forall st s st' r, it_next it st s = Ret (st', r) -> reach s (location r).

(** The list functions. *)
Definition map_items {O T S} (f : O -> T) (l : list (O * S)) : list (T * S) :=
  map (fun x => (f (fst x), snd x)) l.
Fixpoint scanned {St2 O T S} (f : St2 -> O -> St2 * T) (st : St2) (l : list (O * S)) : list (T * S) :=
  match l with
  | [] => []
  | (v, s) :: l => (snd (f st v), s) :: scanned f (fst (f st v)) l
  end.
(** [accepted f l us]: [f] accepts every item of [l], giving [us]. *)
Definition accepted {O T S} (f : O -> option T) (l : list (O * S)) (us : list (T * S)) : Prop :=
  Forall2 (fun x u => f (fst x) = Some (fst u) /\ snd x = snd u) l us.

(** Consecutive successes of a parser, each value with the position after it. *)
Inductive many_at {S O E} (a : behaviour S O E) : S -> list (O * S) -> S -> Prop :=
| ma_nil s : many_at a s [] s
| ma_cons s v m l r : a s (Succ v m) -> many_at a m l r -> many_at a s ((v, m) :: l) r.

(** Where a parse that returned left the sequence. *)
Definition location_of {S O E} (c : comp (res S O E)) : option S :=
  match c with Ret r => Some (location r) | _ => None end.

(** What the answers of a session become, call by call, whatever came before:
    also after an end or an error. *)
Definition on_answer {S O E T E'} (item : O -> S -> res S (option T) E') (err : E -> E') (a : answer S O E)
  : answer S T E' :=
  match a with
  | Answer (Ok (Some v) r) => Answer (item v r)
  | Answer (Ok None r) => Answer (Ok None r)
  | Answer (Err e r) => Answer (Err (err e) r)
  | Died k => Died k
  end.
(** Only items move the state of a scan. *)
Fixpoint scan_answers {St2 S O E T} (f : St2 -> O -> St2 * T) (st : St2) (l : list (answer S O E))
  : list (answer S T E) :=
  match l with
  | [] => []
  | Answer (Ok (Some v) r) :: l => Answer (Ok (Some (snd (f st v))) r) :: scan_answers f (fst (f st v)) l
  | Answer (Ok None r) :: l => Answer (Ok None r) :: scan_answers f st l
  | Answer (Err e r) :: l => Answer (Err e r) :: scan_answers f st l
  | Died k :: l => Died k :: scan_answers f st l
  end.
(** Only items use up a take; once used up, the inputs come back. *)
Fixpoint take_answers {S O E} (n : nat) (ins : list S) (l : list (answer S O E)) : list (answer S O E) :=
  match ins, l with
  | i :: ins', a :: l' =>
      if n =? 0 then Answer (Ok None i) :: map (fun i => Answer (Ok None i)) ins'
      else a :: take_answers (match a with Answer (Ok (Some _) _) => n - 1 | _ => n end) ins' l'
  | _, _ => []
  end.
