(** * S_Why: the answers of a grammar's parser with everything they say: on
    failure which item parsers stood in the way, on success why an option was
    not taken and why a repetition went no further. *)
From Verif Require Export S_Peg.

Section Why.
  Context {T : Type}.

  (** The smallest parsers. *)
  Inductive probe := QAny | QThe (x : T) | QAtom (p : list T).

  (** A reason for failing. *)
  Inductive why :=
  | WLeaf (q : probe)
  | WFirst (f : why)          (* the first of a join *)
  | WSecond (f : why)         (* the second of a join *)
  | WBoth (f g : why)         (* both alternatives *)
  | WOnlyFirst (f : why)      (* the first alternative, for good *)
  | WOnlySecond (f : why)     (* the second alternative, for good *)
  | WCut (f : why).           (* made fatal *)

  (** Whether nothing else may be tried. *)
  Fixpoint grave (f : why) : bool :=
    match f with
    | WLeaf _ => false
    | WFirst f | WSecond f | WOnlyFirst f | WOnlySecond f => grave f
    | WBoth f g => grave f || grave g
    | WCut _ => true
    end.

  (** The item parsers a reason names, in the order in which they were tried. *)
  Fixpoint blamed (f : why) : list probe :=
    match f with
    | WLeaf q => [q]
    | WFirst f | WSecond f | WOnlyFirst f | WOnlySecond f | WCut f => blamed f
    | WBoth f g => blamed f ++ blamed g
    end.

  (** A fatal error was made on the way. *)
  Fixpoint has_cut (f : why) : Prop :=
    match f with
    | WLeaf _ => False
    | WFirst f | WSecond f | WOnlyFirst f | WOnlySecond f => has_cut f
    | WBoth f g => has_cut f \/ has_cut g
    | WCut _ => True
    end.

  Inductive wtree :=
  | WItem (x : T)
  | WUnit
  | WPair (a b : wtree)
  | WTook (a : wtree)                (* the first alternative *)
  | WInstead (a : wtree)             (* the second alternative *)
  | WSome (a : wtree)
  | WNone (f : why)                  (* ... and why not *)
  | WMany (l : list wtree) (f : why) (* ... and why no more *).

  Inductive woutcome :=
  | WSucc (t : wtree) (rest : list T)
  | WFail (f : why) (rest : list T).

  (** An item parser does not match what lies ahead. *)
  Definition stuck (q : probe) (l : list T) : Prop :=
    match q with
    | QAny => l = []
    | QThe x => forall l', l <> x :: l'
    | QAtom p => forall l', l <> p ++ l'
    end.

  (** What the answer of an expression is, and where the input then stands. *)
  Inductive tells (rules : nat -> gexp T) : gexp T -> list T -> woutcome -> Prop :=
  | ts_any x l : tells rules GAny (x :: l) (WSucc (WItem x) l)
  | ts_any_not l : stuck QAny l -> tells rules GAny l (WFail (WLeaf QAny) l)
  | ts_the x l : tells rules (GThe x) (x :: l) (WSucc WUnit l)
  | ts_the_not x l : stuck (QThe x) l -> tells rules (GThe x) l (WFail (WLeaf (QThe x)) l)
  | ts_atom p l : tells rules (GAtom p) (p ++ l) (WSucc WUnit l)
  | ts_atom_not p l : stuck (QAtom p) l -> tells rules (GAtom p) l (WFail (WLeaf (QAtom p)) l)
  | ts_join a b l ta m tb r : tells rules a l (WSucc ta m) -> tells rules b m (WSucc tb r) ->
      tells rules (GJoin a b) l (WSucc (WPair ta tb) r)
  | ts_join_first a b l f r : tells rules a l (WFail f r) -> tells rules (GJoin a b) l (WFail (WFirst f) r)
  | ts_join_second a b l ta m f r : tells rules a l (WSucc ta m) -> tells rules b m (WFail f r) ->
      tells rules (GJoin a b) l (WFail (WSecond f) r)
  | ts_or_took a b l t r : tells rules a l (WSucc t r) -> tells rules (GOr a b) l (WSucc (WTook t) r)
  | ts_or_first a b l f r : tells rules a l (WFail f r) -> grave f = true ->
      tells rules (GOr a b) l (WFail (WOnlyFirst f) r)
  | ts_or_instead a b l f q t r : tells rules a l (WFail f q) -> grave f = false -> tells rules b l (WSucc t r) ->
      tells rules (GOr a b) l (WSucc (WInstead t) r)
  | ts_or_both a b l f q g r : tells rules a l (WFail f q) -> grave f = false ->
      tells rules b l (WFail g r) -> grave g = false -> tells rules (GOr a b) l (WFail (WBoth f g) r)
  | ts_or_second a b l f q g r : tells rules a l (WFail f q) -> grave f = false ->
      tells rules b l (WFail g r) -> grave g = true -> tells rules (GOr a b) l (WFail (WOnlySecond g) r)
  | ts_opt_some a l t r : tells rules a l (WSucc t r) -> tells rules (GOpt a) l (WSucc (WSome t) r)
  | ts_opt_none a l f r : tells rules a l (WFail f r) -> grave f = false -> tells rules (GOpt a) l (WSucc (WNone f) l)
  | ts_opt_cut a l f r : tells rules a l (WFail f r) -> grave f = true -> tells rules (GOpt a) l (WFail f r)
  | ts_rep_end a l f r : tells rules a l (WFail f r) -> grave f = false -> tells rules (GRep a) l (WSucc (WMany [] f) l)
  | ts_rep_more a l t m ts f r : tells rules a l (WSucc t m) -> tells rules (GRep a) m (WSucc (WMany ts f) r) ->
      tells rules (GRep a) l (WSucc (WMany (t :: ts) f) r)
  | ts_rep_cut a l f r : tells rules a l (WFail f r) -> grave f = true -> tells rules (GRep a) l (WFail f r)
  | ts_rep_later a l t m f r : tells rules a l (WSucc t m) -> tells rules (GRep a) m (WFail f r) ->
      tells rules (GRep a) l (WFail f r)
  | ts_cut_ok a l t r : tells rules a l (WSucc t r) -> tells rules (GCut a) l (WSucc t r)
  | ts_cut a l f r : tells rules a l (WFail f r) -> tells rules (GCut a) l (WFail (WCut f) r)
  | ts_ref i l o : tells rules (rules i) l o -> tells rules (GRef i) l o.

  (** An answer without its reasons. *)
  Fixpoint bare (t : wtree) : gtree T :=
    match t with
    | WItem x => TItem x
    | WUnit => TUnit
    | WPair a b => TPair (bare a) (bare b)
    | WTook a => TFirst (bare a)
    | WInstead a => TLast (bare a)
    | WSome a => TSome (bare a)
    | WNone _ => TNone
    | WMany l _ => TMany (map bare l)
    end.
  Definition without_reasons (o : woutcome) : poutcome T :=
    match o with
    | WSucc t rest => PSucc (bare t) rest
    | WFail f _ => if grave f then PCut else PFail
    end.

  (** The reasons in an output. *)
  Fixpoint reasons (t : wtree) : list why :=
    match t with
    | WItem _ | WUnit => []
    | WPair a b => reasons a ++ reasons b
    | WTook a | WInstead a | WSome a => reasons a
    | WNone f => [f]
    | WMany l f => flat_map reasons l ++ [f]
    end.

  (** The parser of S_Peg that keeps every error the combinators give.  The
      error types are those of the combinators ([Miss], [Either], [EitherBoth],
      [Fatal]), renamed by [map_err] so that recursive parsers have a type. *)
  #[export] Instance pe_why : ParseError why := grave.
  Definition of_miss (q : probe) (_ : Miss unit) : why := WLeaf q.
  Definition of_join (e : Either why why) : why := match e with First f => WFirst f | Last f => WSecond f end.
  Definition of_or (e : EitherBoth why why) : why :=
    match e with BFirst f => WOnlyFirst f | BLast f => WOnlySecond f | BBoth f g => WBoth f g end.
  Definition of_fatal (e : Fatal why) : why := match e with MkFatal f => WCut f end.

  Variable eqb : T -> T -> bool.
  Variable rules : nat -> gexp T.
  Fixpoint telling (fuel : nat) (e : gexp T) : dparser (slice T) wtree why :=
    let go := fix go (e : gexp T) : dparser (slice T) wtree why :=
      match e with
      | GAny => MapErr (Map any_item WItem) (of_miss QAny)
      | GThe x => MapErr (Map (the_item eqb x) (fun _ => WUnit)) (of_miss (QThe x))
      | GAtom p => let SG := list_segment eqb in MapErr (Map (atom p) (fun _ => WUnit)) (of_miss (QAtom p))
      | GJoin a b => MapErr (Map (Join (go a) (go b)) (fun '(x, y) => WPair x y)) of_join
      | GOr a b => MapErr (Map (Or (go a) (go b)) (fun e => match e with First x => WTook x | Last x => WInstead x end)) of_or
      | GOpt a => Map (Optional (go a)) (fun r => match r with ROk x => WSome x | RErr f => WNone f end)
      | GRep a => Map (Repeat fuel (go a)) (fun '(l, f) => WMany l f)
      | GCut a => MapErr (MapErr (go a) (MkFatal (E := why))) of_fatal
      | GRef i =>
          match fuel with
          | 0 => closure (fun _ => OutOfFuel)
          | Datatypes.S fuel => Boxed (closure (fun s => parse (telling fuel (rules i)) s))
          end
      end in
    go e.

  (** A run gives this answer. *)
  Definition answers (s : slice T) (r : comp (res (slice T) wtree why)) (o : woutcome) : Prop :=
    match o with
    | WSucc t rest => exists s', r = Ret (Ok t s') /\ later_slice s s' /\ sl_data s' = rest
    | WFail f rest => exists s', r = Ret (Err f s') /\ later_slice s s' /\ sl_data s' = rest
    end.
End Why.
Arguments probe T : clear implicits.
Arguments why T : clear implicits.
Arguments wtree T : clear implicits.
Arguments woutcome T : clear implicits.
