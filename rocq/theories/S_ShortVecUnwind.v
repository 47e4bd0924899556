(** * S_ShortVecUnwind: a plain growable stack whose calls may be refused, and
    whose values may panic when dropped. *)
From Coq Require Import List Arith.
From Verif Require Import M_ShortVecUnwind S_ShortVec.
Import ListNotations.

(** [suffers panics room vs cs us ws]: from the elements [vs] the calls [cs] are seen to
    end as [us] and leave [ws], where [room n] says that [n] elements can be had. *)
Inductive suffers {T} (panics : T -> bool) (room : nat -> Prop) : list T -> list (call T) -> list (caught T) -> list T -> Prop :=
| su_end vs : suffers panics room vs [] [] vs
  (* answered *)
| su_answered vs c r vs' cs us ws :
    stack_step vs c = Some (r, vs') ->
    (forall i v old, c = CAssign i v -> nth_error vs i = Some old -> panics old = false) ->
    suffers panics room vs' cs us ws -> suffers panics room vs (c :: cs) (Replied r :: us) ws
  (* the value replaced panics: it is replaced all the same *)
| su_replaced vs i v r old vs' cs us ws :
    nth_error vs i = Some old -> panics old = true -> stack_step vs (CAssign i v) = Some (r, vs') ->
    suffers panics room vs' cs us ws -> suffers panics room vs (CAssign i v :: cs) (Unwound :: us) ws
  (* refused: twice the capacity asked for cannot be had, or an index out of bounds *)
| su_refused vs c cs us ws :
    ~ room (2 * demand (length vs) c) \/ stack_step vs c = None ->
    suffers panics room vs cs us ws -> suffers panics room vs (c :: cs) (Unwound :: us) ws.

(** Values handed back. *)
Definition handed_back {T} (us : list (caught T)) : list T :=
  flat_map (fun u => match u with Replied r => returned [r] | Unwound => [] end) us.
