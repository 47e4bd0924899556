(** * S_EndToEnd: what a parser reads of a plain list of items, and a loader whose
    segments a running parser gets. *)
From Verif Require Export S_LiveJoin S_GenSeq.

Section Spec.
  Context {T : Type} (eqb : T -> T -> bool).

  (** Every item in a segment of its own. *)
  Definition one_each (l : list T) : list (list T) := map (fun x => [x]) l.

  (** The answer and the items left. *)
  Fixpoint reads {O E} (p : lparser T O E) (l : list T) : result O E * list T :=
    match p with
    | PAny => match l with x :: rest => (ROk x, rest) | [] => (RErr (MkMiss tt), l) end
    | PThe x =>
        match l with
        | y :: rest => if eqb y x then (ROk tt, rest) else (RErr (MkMiss tt), l)
        | [] => (RErr (MkMiss tt), l)
        end
    | PAtom pat =>
        if list_eqb eqb (firstn (length pat) l) pat then (ROk tt, skipn (length pat) l) else (RErr (MkMiss tt), l)
    | PLook k =>
        match settle k (lk_init k) (one_each l) with
        | inr (VTake n o) => (ROk o, skipn n l)
        | _ => (RErr (MkMiss tt), l)
        end
    | PJoin p0 p1 =>
        match reads p0 l with
        | (ROk o0, l0) => match reads p1 l0 with
                          | (ROk o1, l1) => (ROk (o0, o1), l1)
                          | (RErr e, l1) => (RErr (Last e), l1)
                          end
        | (RErr e, l0) => (RErr (First e), l0)
        end
    | PMap p f => match reads p l with (ROk o, l0) => (ROk (f o), l0) | (RErr e, l0) => (RErr e, l0) end
    | PMapErr p f => match reads p l with (ROk o, l0) => (ROk o, l0) | (RErr e, l0) => (RErr (f e), l0) end
    | PAndThen from p f =>
        match reads p l with
        | (ROk o, l0) => (match f o with ROk o' => ROk o' | RErr e => RErr e end, l0)
        | (RErr e, l0) => (RErr (from e), l0)
        end
    | PUnify into0 into1 p =>
        match reads p l with
        | (ROk (First a), l0) => (ROk (into0 a), l0)
        | (ROk (Last a), l0) => (ROk (into1 a), l0)
        | (RErr e, l0) => (RErr e, l0)
        end
    | PUnifyErr into0 into1 p =>
        match reads p l with
        | (ROk o, l0) => (ROk o, l0)
        | (RErr (First e), l0) => (RErr (into0 e), l0)
        | (RErr (Last e), l0) => (RErr (into1 e), l0)
        end
    | PRef p => reads p l
    | PBoxed p => reads p l
    | PDone o => (ROk o, l)
    | PFail e => (RErr e, l)
    | PThen from p k =>
        match reads p l with
        | (ROk o, l0) => reads (k o) l0
        | (RErr e, l0) => (RErr (from e), l0)
        end
    end.

  (** The segments from the [n]-th item on. *)
  Fixpoint cut (n : nat) (q : list (list T)) : list (list T) :=
    match q with
    | [] => []
    | s :: q' => if length s <=? n then cut (n - length s) q' else skipn n s :: q'
    end.

  (** No atom that matches is cut by the end of a segment; and what a parser of
      the user's own makes of the first so many segments is what it makes of their
      items one by one. *)
  Fixpoint uncut {O E} (p : lparser T O E) (q : list (list T)) : Prop :=
    match p with
    | PAny | PThe _ => True
    | PAtom pat => match cut 0 q with seg :: _ => S_Seq.prefix pat (concat q) -> length pat <= length seg | [] => True end
    | PLook k => forall some rest, solid q = some ++ rest ->
        settle k (lk_init k) some = settle k (lk_init k) (one_each (concat some))
    | PJoin p0 p1 =>
        uncut p0 q /\
        forall o rest, reads p0 (concat q) = (ROk o, rest) -> uncut p1 (cut (length (concat q) - length rest) q)
    | PMap p _ => uncut p q
    | PMapErr p _ => uncut p q
    | PAndThen _ p _ => uncut p q
    | PUnify _ _ p => uncut p q
    | PUnifyErr _ _ p => uncut p q
    | PRef p => uncut p q
    | PBoxed p => uncut p q
    | PDone _ | PFail _ => True
    | PThen _ p k =>
        uncut p q /\
        forall o rest, reads p (concat q) = (ROk o, rest) -> uncut (k o) (cut (length (concat q) - length rest) q)
    end.

  (** Every atom has a pattern of one item; and how the items are cut into segments
      makes no difference to a parser of the user's own. *)
  Fixpoint by_items {O E} (p : lparser T O E) : Prop :=
    match p with
    | PAny | PThe _ => True
    | PAtom pat => length pat = 1
    | PLook k => modest k /\ steady k /\ forall q, settle k (lk_init k) q = settle k (lk_init k) (one_each (concat q))
    | PJoin p0 p1 => by_items p0 /\ by_items p1
    | PMap p _ => by_items p
    | PMapErr p _ => by_items p
    | PAndThen _ p _ => by_items p
    | PUnify _ _ p => by_items p
    | PUnifyErr _ _ p => by_items p
    | PRef p => by_items p
    | PBoxed p => by_items p
    | PDone _ | PFail _ => True
    | PThen _ p k => by_items p /\ forall o, by_items (k o)
    end.
End Spec.

(** Async functions that read [n] items, and a count followed by so many items. *)
Fixpoint count_items {T} (n : nat) : lparser T (list T) (Miss unit) :=
  match n with
  | 0 => PDone []
  | S n => PThen (fun e => e) PAny (fun x => PMap (count_items n) (cons x))
  end.
Definition frame : lparser nat (list nat) (Miss unit) := PThen (fun e => e) PAny count_items.

(** The loader of an IteratorSource of these chunks, run to its end, commits these segments. *)
Definition commits {T} (grow : nat -> nat) (chunks ss : list (list T)) : Prop :=
  exists rs l, load_all iterator_source (repeat (LLoad grow) (length chunks + 1)) (loader_new chunks) = Ret (rs, l)
    /\ committed l ss.

(** A parser that a user might write: all items before the first [stop], which is passed over.
    It looks through as many segments as it takes. *)
Section Line.
  Context {T : Type} (eqb : T -> T -> bool) (stop : T).
  Fixpoint before_stop (s : list T) : option (list T) :=
    match s with
    | [] => None
    | x :: s => if eqb x stop then Some [] else option_map (cons x) (before_stop s)
    end.
  Definition line_looker : @looker T (list T) := {|
    lk_state := list T;
    lk_init := [];
    lk_step := fun line answer =>
      match answer with
      | Some segment =>
          match before_stop segment with
          | Some found => inr (VTake (length line + length found + 1) (line ++ found))
          | None => inl (line ++ segment)
          end
      | None => inr VMiss
      end
  |}.
  Definition line : lparser T (list T) (Miss unit) := PLook line_looker.
End Line.

(** Another one: the items up to the first that is not [wanted], or all of them. It succeeds
    also on hearing the end. *)
Section While.
  Context {T : Type} (wanted : T -> bool).
  Fixpoint leading (s : list T) : list T :=
    match s with
    | [] => []
    | x :: s => if wanted x then x :: leading s else []
    end.
  Definition while_looker : @looker T (list T) := {|
    lk_state := list T;
    lk_init := [];
    lk_step := fun run answer =>
      match answer with
      | Some segment =>
          if forallb wanted segment then inl (run ++ segment)
          else inr (VTake (length run + length (leading segment)) (run ++ leading segment))
      | None => inr (VTake (length run) run)
      end
  |}.
  Definition while : lparser T (list T) (Miss unit) := PLook while_looker.
End While.
