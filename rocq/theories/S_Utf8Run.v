(** * S_Utf8Run: what a validator over the generic loader keeps of all its chunks. *)
From Verif Require Export S_Utf8 S_GenSeq.
From Verif Require Import M_Writer M_Utf8.

(** With [spare] free cells in the buffer and the bytes [held] back by the
    validator; [None]: a load panics or reports an error. *)
Fixpoint keeps_utf8 (grow : nat -> nat) (spare : nat) (held : list byte) (chunks : list (list byte)) : option (list byte) :=
  match chunks with
  | [] => Some []
  | c :: cs =>
      let spare0 := if length held + length c <=? spare then spare else grow (length held + length c) in
      match kept_utf8 spare0 (length held) c with
      | Some k =>
          let v := valid_up_to (held ++ k) in
          if length (skipn v (held ++ k)) <=? 3 then
            option_map (app (firstn v (held ++ k))) (keeps_utf8 grow (spare0 - v) (skipn v (held ++ k)) cs)
          else None
      | None => None
      end
  end.

(** The loader of a validator over an IteratorSource of these chunks, run to its
    end, reports no error and commits these segments. *)
Definition validated (grow : nat -> nat) (chunks ss : list (list byte)) : Prop :=
  exists rs l, load_utf8_all iterator_source grow (length chunks + 1) (loader_new (validator_new chunks)) = Ret (rs, l)
    /\ Forall load_ok rs /\ committed l ss.
