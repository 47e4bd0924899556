(** * M_Reactive: crates/parcom-internals/src/reactive.  Model only; no proofs.
    An observer is the body of its [next]; a predicate may panic.  The
    repository has no observable other than [Filter]: [Root] stands for any
    observable that calls [next] of what is subscribed to it. *)
From Verif Require Export M_Base.

Set Implicit Arguments.

Section Reactive.
  Context {T : Type}.

  (** reactive.rs:13-15 [IObserver::next]; [St] is what [&mut self] holds. *)
  Definition observer (St : Type) := St -> T -> comp St.

  (** extension/filter.rs:5-19 [Filter], :11-13 in extension.rs [filter]. *)
  Inductive observable :=
  | Root
  | Filter (source : observable) (predicate : T -> comp bool).

  (** extension/filter.rs:27-33 *)
  Definition filter_next {St} (predicate : T -> comp bool) (inner : observer St) : observer St :=
    fun st item =>
      b <- predicate item ;;
      if b then inner st item else Ret st.

  (** extension/filter.rs:42-50: the observer that ends up subscribed to the
      root. *)
  Fixpoint subscribe {St} (o : observable) (inner : observer St) : observer St :=
    match o with
    | Root => inner
    | Filter source predicate => subscribe source (filter_next predicate inner)
    end.

  (** The root emits items one after another. *)
  Fixpoint emit {St} (o : observer St) (st : St) (items : list T) : comp St :=
    match items with
    | [] => Ret st
    | x :: items => st' <- o st x ;; emit o st' items
    end.
End Reactive.
Arguments observable T : clear implicits.
