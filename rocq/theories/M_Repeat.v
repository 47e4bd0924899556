(** * M_Repeat: example/src/repeat.rs.  Model only; no proofs. *)
From Verif Require Export M_Comb M_Prim M_Seq.

(** "text" *)
Definition word : list char := [116; 101; 120; 116]%N.

Section Example_.
  Variable budget : nat.

  (** repeat.rs:9 *)
  Definition repeat_parser : dparser strref (list (list char) * Miss unit) (Miss unit) :=
    Repeat budget (Map (atom (Str word)) (fun _ => word)).

  (** repeat.rs:12-18 on any input: what is printed, [unreachable!()] a panic. *)
  Definition repeat_example (input : strref) : comp (list (list char) * list char) :=
    r <- parse repeat_parser input ;;
    match r with
    | Ok v r => Ret (fst v, chars (sr_str r))
    | Err _ _ => Panic
    end.
End Example_.
