(** * S_Never: types without values. *)
From Verif Require Import M_Base.

Definition no_value (T : Type) : Prop := T -> False.

(** The marked types in which no array has length zero. *)
Inductive no_empty_array : Type -> Prop :=
| ne_never : no_empty_array Never
| ne_result T E : no_empty_array T -> no_empty_array E -> no_empty_array (result T E)
| ne_array T n : 0 < n -> no_empty_array T -> no_empty_array (array T n)
| ne_either T0 T1 : no_empty_array T0 -> no_empty_array T1 -> no_empty_array (Either T0 T1)
| ne_either_both T0 T1 : no_empty_array T0 -> no_empty_array T1 -> no_empty_array (EitherBoth T0 T1).
