(** * S_Runner: what the runner's sequence promises, in terms of histories. *)
From Verif Require Export M_Runner S_GenSeq.

Section Spec.
  Context {T : Type}.
  Implicit Types (h : list (@revent T)).

  (** The buffer [b] over a chain ending at [tail] has the segments [q] ahead. *)
  Definition ahead (hp : heap T) (tail : nat) (b : gbuffer) (q : list (list T)) : Prop :=
    exists ss, chain hp (head_node b) ss tail /\
      match ss with
      | [] => head_offset b = 0 /\ q = []
      | s :: ss' => head_offset b <= length s /\ q = skipn (head_offset b) s :: ss'
      end.

  (** Histories are newest first; these lists are oldest first. *)
  Fixpoint appended h : list (list T) :=
    match h with
    | [] => []
    | EAppend seg :: h => appended h ++ [seg]
    | _ :: h => appended h
    end.
  Fixpoint returned h : list (list T) :=
    match h with
    | [] => []
    | EReturn (Some seg) :: h => returned h ++ [seg]
    | _ :: h => returned h
    end.
  Fixpoint sends h : nat :=
    match h with
    | [] => 0
    | ESend :: h => S (sends h)
    | _ :: h => sends h
    end.

  (** What had happened before the latest [wait()]. *)
  Fixpoint before_wait h : list revent :=
    match h with
    | [] => []
    | EWait :: h => h
    | _ :: h => before_wait h
    end.
  (** What had happened before the latest send. *)
  Fixpoint before_send h : list revent :=
    match h with
    | [] => []
    | ESend :: h => h
    | _ :: h => before_send h
    end.
  (** What had happened before the latest second look at the chain. *)
  Fixpoint before_look h : list revent :=
    match h with
    | [] => []
    | ELook :: h => h
    | _ :: h => before_look h
    end.
  Definition sends_since_wait h : nat := sends h - sends (before_wait h).

  (** What had happened before the first time a look at the chain ended. *)
  Fixpoint before_first_look h : option (list revent) :=
    match h with
    | [] => None
    | e :: h =>
        match before_first_look h, e with
        | Some h0, _ => Some h0
        | None, ELook => Some h
        | None, _ => None
        end
    end.

  (** All items: those at the start and those appended since. *)
  Definition all_items (q : list (list T)) h : list T := concat (q ++ appended h).

  Definition prefix {X} (a b : list X) : Prop := exists c, a ++ c = b.
End Spec.
