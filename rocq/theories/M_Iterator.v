(** * M_Iterator: crates/parcom-sequence-sources/src/iterator_source.rs over any
    iterator.  M_GenSeq has it over an iterator that gives the chunks of a list and then
    [None] for ever; an [Iterator] of Rust may give [None] and go on later.
    Model only; no proofs.
    Simplification: [next] returns (it does not panic or run for ever). *)
From Verif Require Export M_GenSeq.

Set Implicit Arguments.

(** [I::IntoIter]: a state and its [next]. *)
Definition iter_next (T I : Type) : Type := I -> option (list T) * I.

(** iterator_source.rs:47-63 *)
Definition iterator_source_of {T I} (next : iter_next T I) : source T Never I :=
  fun iter =>
    match next iter with
    | (None, iter') => SFinish iter'
    | (Some seg, iter') => SRequest (length seg) (push_all seg (WAdvance iter'))
    end.
