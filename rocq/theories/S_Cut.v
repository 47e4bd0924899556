(** * S_Cut: sequences that are read item by item, and the telling parser of a
    grammar over any of them. *)
From Verif Require Export S_Any S_Why.

(** [cont]: what lies ahead.  The two parsers that look at one item see its
    first, whatever the sequence is and wherever its segments end. *)
Record reads_items {S A T} {RW : RewindSequence S A} (P : prims S T) (cont : S -> list T) (later : S -> S -> Prop) : Prop := {
  ri_rewind : lawful_rewind later;
  ri_any : forall s x l, cont s = x :: l -> exists s', parse (p_any P) s = Ret (Ok x s') /\ cont s' = l /\ later s s';
  ri_any_not : forall s, cont s = [] -> parse (p_any P) s = Ret (Err (MkMiss tt) s);
  ri_the : forall s x l, cont s = x :: l -> exists s', parse (p_the P x) s = Ret (Ok tt s') /\ cont s' = l /\ later s s';
  ri_the_not : forall s x, (forall l, cont s <> x :: l) -> parse (p_the P x) s = Ret (Err (MkMiss tt) s);
  ri_any_once : forall s, parse_once (p_any P) s = parse (p_any P) s;
  ri_the_once : forall s x, parse_once (p_the P x) s = parse (p_the P x) s
}.

(** The parser S_Why.telling of a grammar without patterns, as an expression;
    a rule reached with no budget left repeats with none. *)
Section Telling.
  Context {T : Type} (rules : nat -> gexp T).
  Definition spent : pexp (single_leaf T) (wtree T) (why T) :=
    XMapErr (XMap (XRepeat pe_miss 0 (XLeaf KAny)) (fun _ => WUnit)) (of_miss QAny).
  Fixpoint telling_exp (fuel : nat) (e : gexp T) : pexp (single_leaf T) (wtree T) (why T) :=
    let go := fix go (e : gexp T) : pexp (single_leaf T) (wtree T) (why T) :=
      match e with
      | GAny => XMapErr (XMap (XLeaf KAny) WItem) (of_miss QAny)
      | GThe x => XMapErr (XMap (XLeaf (KThe x)) (fun _ => WUnit)) (of_miss (QThe x))
      | GAtom _ => spent
      | GJoin a b => XMapErr (XMap (XJoin (go a) (go b)) (fun '(x, y) => WPair x y)) of_join
      | GOr a b => XMapErr (XMap (XOr pe_why pe_why (go a) (go b))
                     (fun e => match e with First x => WTook x | Last x => WInstead x end)) of_or
      | GOpt a => XMap (XOptional pe_why (go a)) (fun r => match r with ROk x => WSome x | RErr f => WNone f end)
      | GRep a => XMap (XRepeat pe_why fuel (go a)) (fun '(l, f) => WMany l f)
      | GCut a => XMapErr (XMapErr (go a) (MkFatal (E := why T))) of_fatal
      | GRef i =>
          match fuel with
          | 0 => spent
          | Datatypes.S fuel => XBoxed (telling_exp fuel (rules i))
          end
      end in
    go e.
  Definition telling_on {S A} {RW : RewindSequence S A} (P : prims S T) (fuel : nat) (e : gexp T) : dparser S (wtree T) (why T) :=
    build _ (singles_of P) (telling_exp fuel e).
End Telling.

Definition answers_on {S T} (later : S -> S -> Prop) (cont : S -> list T) (s : S)
    (r : comp (res S (wtree T) (why T))) (o : woutcome T) : Prop :=
  match o with
  | WSucc t rest => exists s', r = Ret (Ok t s') /\ later s s' /\ cont s' = rest
  | WFail f rest => exists s', r = Ret (Err f s') /\ later s s' /\ cont s' = rest
  end.
