(** * S_Live: what a parser saw, and what its sequence left_with. *)
From Verif Require Export M_Live S_Runner S_Prim.

Section Spec.
  Context {T O : Type} (p : @looker T O).

  (** What the parser has made of the segments so far, oldest first. *)
  Inductive witnessed : list (list T) -> lk_state p + ruling O -> Prop :=
  | witnessed_none : witnessed [] (inl (lk_init p))
  | witnessed_next ss st s : witnessed ss (inl st) -> witnessed (ss ++ [s]) (lk_step p st (Some s)).

  (** It never takes more than it saw, and gives up at the end. *)
  Definition modest : Prop :=
    (forall ss n o, witnessed ss (inr (VTake n o)) -> n <= length (concat ss)) /\
    (forall st, lk_step p st None = inr VMiss).

  (** The same, but at the end it may also take of what it saw. *)
  Definition honest : Prop :=
    (forall ss n o, witnessed ss (inr (VTake n o)) -> n <= length (concat ss)) /\
    (forall st, exists v, lk_step p st None = inr v) /\
    (forall ss st n o, witnessed ss (inl st) -> lk_step p st None = inr (VTake n o) -> n <= length (concat ss)).

  (** An empty segment changes nothing. *)
  Definition steady : Prop := forall ss st, witnessed ss (inl st) -> lk_step p st (Some []) = inl st.

  (** What it makes of segments that are all there. *)
  Fixpoint settle (st : lk_state p) (ss : list (list T)) : lk_state p + ruling O :=
    match ss with
    | [] => lk_step p st None
    | s :: ss => match lk_step p st (Some s) with inl st' => settle st' ss | inr v => inr v end
    end.
  Definition look_parse : pfun (chunked T) O (Miss unit) := fun input =>
    match settle (lk_init p) (segments input) with
    | inr (VTake n o) => r <- advance input n ;; M_Base.done o r
    | _ => fail (MkMiss tt) input
    end.
End Spec.

(** Some steps lead from one state to the other. *)
Inductive leads {T O} (modulus : nat) (p : @looker T O) : lstate p -> lstate p -> Prop :=
| leads_here l : leads modulus p l l
| leads_on l l1 l2 : lstep modulus l l1 -> leads modulus p l1 l2 -> leads modulus p l l2.

(** The parser has answered. *)
Definition answered {T O} {p : @looker T O} (l : lstate p) : Prop :=
  match l with LLook _ _ _ => False | LAdvance _ _ a => a_pc a = AReady | LMiss _ _ => True end.

(** The items ahead of a buffer. *)
Definition left_with {T} (x : @shared T) (b : gbuffer) (items : list T) : Prop :=
  exists q, ahead (sh_heap x) (sh_tail x) b q /\ concat q = items.
