(** * S_ShortVec: a plain growable stack. *)
From Coq Require Import List Arith Permutation.
From Verif Require Import M_ShortVec.
Import ListNotations.

(** The calls and replies are those of M_ShortVec; the state is the list of
    elements, oldest first.  [None]: the call is a client error (an index out of
    bounds). *)
Definition stack_step {T} (vs : list T) (c : call T) : option (reply T * list T) :=
  match c with
  | CPush v => Some (RUnit, vs ++ [v])
  | CPop => Some (RPop (match rev vs with [] => None | v :: _ => Some v end), removelast vs)
  | CReserve _ | CReserveExact _ => Some (RUnit, vs)
  | CAsSlice => Some (RSlice vs, vs)
  | CIsEmpty => Some (RBool (match vs with [] => true | _ => false end), vs)
  | CAssign i v =>
      if i <? length vs then Some (RUnit, firstn i vs ++ v :: skipn (S i) vs) else None
  end.

Fixpoint stack_run {T} (vs : list T) (cs : list (call T)) : option (list (reply T) * list T) :=
  match cs with
  | [] => Some ([], vs)
  | c :: cs' =>
      match stack_step vs c with
      | None => None
      | Some (r, vs') =>
          match stack_run vs' cs' with
          | None => None
          | Some (rs, vs'') => Some (r :: rs, vs'')
          end
      end
  end.

(** The capacity a call asks for on a stack of [n] elements. *)
Definition demand {T} (n : nat) (c : call T) : nat :=
  match c with
  | CPush _ => n + 1
  | CReserve k | CReserveExact k => k
  | _ => 0
  end.

(** No call of the run asks for more than [bound]. *)
Fixpoint demands_within {T} (bound : nat) (vs : list T) (cs : list (call T)) : Prop :=
  match cs with
  | [] => True
  | c :: cs' =>
      demand (length vs) c <= bound /\
      match stack_step vs c with
      | None => False
      | Some (_, vs') => demands_within bound vs' cs'
      end
  end.

(** Values handed over to the vector, and values handed back. *)
Definition given {T} (cs : list (call T)) : list T :=
  flat_map (fun c => match c with CPush v | CAssign _ v => [v] | _ => [] end) cs.
Definition returned {T} (rs : list (reply T)) : list T :=
  flat_map (fun r => match r with RPop (Some v) => [v] | _ => [] end) rs.

(** What a memory log says. *)
Definition allocated {T} (l : list (event T)) : list (nat * nat) :=
  flat_map (fun e => match e with EAlloc id size => [(id, size)] | _ => [] end) l.
Definition freed {T} (l : list (event T)) : list (nat * nat) :=
  flat_map (fun e => match e with EFree id size => [(id, size)] | _ => [] end) l.
Definition dropped {T} (l : list (event T)) : list T :=
  flat_map (fun e => match e with EDrop v => [v] | _ => [] end) l.
