(** * S_Peg: grammar expressions, their PEG big-step meaning, and the parser one
    writes for them with the crate's combinators. *)
From Verif Require Export M_Base M_Comb M_Seq M_Prim S_Seq.

Section Peg.
  Context {T : Type}.

  (** Grammar expressions over items of [T]; [GCut a]: a failure of [a] is
      fatal; [GRef i]: the [i]-th rule (a recursive parser function). *)
  Inductive gexp :=
  | GAny
  | GThe (x : T)
  | GAtom (p : list T)
  | GJoin (a b : gexp)
  | GOr (a b : gexp)
  | GOpt (a : gexp)
  | GRep (a : gexp)
  | GCut (a : gexp)
  | GRef (i : nat).

  Inductive gtree :=
  | TItem (x : T)
  | TUnit
  | TPair (a b : gtree)
  | TFirst (a : gtree)
  | TLast (a : gtree)
  | TSome (a : gtree)
  | TNone
  | TMany (l : list gtree).

  Inductive poutcome :=
  | PSucc (t : gtree) (rest : list T)
  | PFail
  | PCut.

  (** Parsing expression grammars with a cut. *)
  Inductive peg (rules : nat -> gexp) : gexp -> list T -> poutcome -> Prop :=
  | pg_any x l : peg rules GAny (x :: l) (PSucc (TItem x) l)
  | pg_any_end : peg rules GAny [] PFail
  | pg_the x l : peg rules (GThe x) (x :: l) (PSucc TUnit l)
  | pg_the_not x l : (forall l', l <> x :: l') -> peg rules (GThe x) l PFail
  | pg_atom p l : peg rules (GAtom p) (p ++ l) (PSucc TUnit l)
  | pg_atom_not p l : (forall l', l <> p ++ l') -> peg rules (GAtom p) l PFail
  | pg_join a b l ta m tb r : peg rules a l (PSucc ta m) -> peg rules b m (PSucc tb r) ->
      peg rules (GJoin a b) l (PSucc (TPair ta tb) r)
  | pg_join_fail1 a b l : peg rules a l PFail -> peg rules (GJoin a b) l PFail
  | pg_join_cut1 a b l : peg rules a l PCut -> peg rules (GJoin a b) l PCut
  | pg_join_fail2 a b l ta m : peg rules a l (PSucc ta m) -> peg rules b m PFail -> peg rules (GJoin a b) l PFail
  | pg_join_cut2 a b l ta m : peg rules a l (PSucc ta m) -> peg rules b m PCut -> peg rules (GJoin a b) l PCut
  | pg_or_first a b l t r : peg rules a l (PSucc t r) -> peg rules (GOr a b) l (PSucc (TFirst t) r)
  | pg_or_cut a b l : peg rules a l PCut -> peg rules (GOr a b) l PCut
  | pg_or_last a b l t r : peg rules a l PFail -> peg rules b l (PSucc t r) ->
      peg rules (GOr a b) l (PSucc (TLast t) r)
  | pg_or_fail a b l : peg rules a l PFail -> peg rules b l PFail -> peg rules (GOr a b) l PFail
  | pg_or_cut2 a b l : peg rules a l PFail -> peg rules b l PCut -> peg rules (GOr a b) l PCut
  | pg_opt_some a l t r : peg rules a l (PSucc t r) -> peg rules (GOpt a) l (PSucc (TSome t) r)
  | pg_opt_none a l : peg rules a l PFail -> peg rules (GOpt a) l (PSucc TNone l)
  | pg_opt_cut a l : peg rules a l PCut -> peg rules (GOpt a) l PCut
  | pg_rep_end a l : peg rules a l PFail -> peg rules (GRep a) l (PSucc (TMany []) l)
  | pg_rep_more a l t m ts r : peg rules a l (PSucc t m) -> peg rules (GRep a) m (PSucc (TMany ts) r) ->
      peg rules (GRep a) l (PSucc (TMany (t :: ts)) r)
  | pg_rep_cut a l : peg rules a l PCut -> peg rules (GRep a) l PCut
  | pg_rep_cut2 a l t m : peg rules a l (PSucc t m) -> peg rules (GRep a) m PCut -> peg rules (GRep a) l PCut
  | pg_cut_ok a l t r : peg rules a l (PSucc t r) -> peg rules (GCut a) l (PSucc t r)
  | pg_cut_fail a l : peg rules a l PFail -> peg rules (GCut a) l PCut
  | pg_cut_cut a l : peg rules a l PCut -> peg rules (GCut a) l PCut
  | pg_ref i l o : peg rules (rules i) l o -> peg rules (GRef i) l o.

  (** The error type of the parsers below. *)
  Inductive gerr := EMiss | EFatal.
  #[export] Instance pe_gerr : ParseError gerr := fun e => match e with EFatal => true | EMiss => false end.
  Definition flatten {E} `{ParseError E} (e : E) : gerr := if should_terminate e then EFatal else EMiss.

  (** The parser for a grammar expression.  [fuel] bounds the depth of calls of
      parser functions and the turns of each [repeat]. *)
  Variable eqb : T -> T -> bool.
  Variable rules : nat -> gexp.
  Fixpoint parser_of (fuel : nat) (e : gexp) : dparser (slice T) gtree gerr :=
    let go := fix go (e : gexp) : dparser (slice T) gtree gerr :=
      match e with
      | GAny => MapErr (Map any_item TItem) flatten
      | GThe x => MapErr (Map (the_item eqb x) (fun _ => TUnit)) flatten
      | GAtom p => let SG := list_segment eqb in MapErr (Map (atom p) (fun _ => TUnit)) flatten
      | GJoin a b => MapErr (Map (Join (go a) (go b)) (fun '(x, y) => TPair x y)) flatten
      | GOr a b => MapErr (Map (Or (go a) (go b)) (fun e => match e with First x => TFirst x | Last x => TLast x end)) flatten
      | GOpt a => Map (Optional (go a)) (fun r => match r with ROk x => TSome x | RErr _ => TNone end)
      | GRep a => Map (Repeat fuel (go a)) (fun '(l, _) => TMany l)
      | GCut a => MapErr (go a) (fun _ => EFatal)
      | GRef i =>
          match fuel with
          | 0 => closure (fun _ => OutOfFuel)
          | Datatypes.S fuel => Boxed (closure (fun s => parse (parser_of fuel (rules i)) s))
          end
      end in
    go e.

  (** A run has this outcome. *)
  Definition has_outcome (s : slice T) (r : comp (res (slice T) gtree gerr)) (o : poutcome) : Prop :=
    match o with
    | PSucc t rest => exists s', r = Ret (Ok t s') /\ later_slice s s' /\ sl_data s' = rest
    | PFail => exists s', r = Ret (Err EMiss s') /\ later_slice s s'
    | PCut => exists s', r = Ret (Err EFatal s') /\ later_slice s s'
    end.
End Peg.
Arguments gexp T : clear implicits.
Arguments gtree T : clear implicits.
Arguments poutcome T : clear implicits.
