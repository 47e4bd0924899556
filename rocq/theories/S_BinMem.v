(** * S_BinMem: how many operators of a chain wait for their right operand. *)
From Coq Require Export Permutation.
From Verif Require Export S_BinExpr M_ShortVec S_ShortVec.

Set Implicit Arguments.

Section Waiting.
  Context {Op : Type} `{Operator Op}.

  (** [o] leaves what follows to the later operator [o']. *)
  Definition yields_to (o o' : Op) : bool :=
    match associativity o with
    | Left => precedence o <? precedence o'
    | Right => precedence o <=? precedence o'
    end.
  (** Of the operators read so far those that wait: each yields to all the later ones. *)
  Fixpoint waiting (os : list Op) : list Op :=
    match os with
    | [] => []
    | o :: l => if forallb (yields_to o) l then o :: waiting l else waiting l
    end.
  (** While the chain is read, never more than [k] wait. *)
  Definition never_more_than (k : nat) (os : list Op) : Prop :=
    forall a b, os = a ++ b -> length (waiting a) <= k.

  (** The operators on the right edge of a tree, from the root down. *)
  Fixpoint right_edge {T} (t : tree T Op) : list Op :=
    match t with
    | Leaf _ => []
    | Node _ o r => o :: right_edge r
    end.
End Waiting.

(** What a vector leaves behind: all that was allocated was freed, once. *)
Definition all_freed {T} (m : mem T) : Prop :=
  Permutation (allocated (log m)) (freed (log m)) /\ NoDup (map fst (allocated (log m))) /\
  Forall (fun b => b_live b = false) (blocks m).
