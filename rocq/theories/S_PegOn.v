(** * S_PegOn: the parser of a grammar expression over any sequence type, and
    what its result on one sequence says about another. *)
From Verif Require Export S_Peg.

(** The three item parsers a grammar is built from. *)
Record prims (S T : Type) : Type := Prims {
  p_any : dparser S T (Miss unit);
  p_the : T -> dparser S unit (Miss unit);
  p_atom : list T -> dparser S unit (Miss unit)
}.
Arguments Prims {S T} _ _ _.
Arguments p_any {S T} _.
Arguments p_the {S T} _ _.
Arguments p_atom {S T} _ _.

(** Those of a sequence of items, and of a sequence of text. *)
Definition item_prims {S T} {SQ : Sequence S (list T)} (eqb : T -> T -> bool) : prims S T :=
  Prims any_item (the_item eqb) (fun p => let SG := list_segment eqb in atom p).
Definition text_prims {S} {SQ : Sequence S str} : prims S char :=
  Prims any_char the_char (fun p => atom (Str p)).

Section On.
  Context {S A T : Type} {RW : RewindSequence S A} (P : prims S T) (rules : nat -> gexp T).

  (** [parser_of] of S_Peg, over any sequence. *)
  Fixpoint parser_on (fuel : nat) (e : gexp T) : dparser S (gtree T) gerr :=
    let go := fix go (e : gexp T) : dparser S (gtree T) gerr :=
      match e with
      | GAny => MapErr (Map (p_any P) TItem) flatten
      | GThe x => MapErr (Map (p_the P x) (fun _ => TUnit)) flatten
      | GAtom p => MapErr (Map (p_atom P p) (fun _ => TUnit)) flatten
      | GJoin a b => MapErr (Map (Join (go a) (go b)) (fun '(x, y) => TPair x y)) flatten
      | GOr a b => MapErr (Map (Or (go a) (go b)) (fun e => match e with First x => TFirst x | Last x => TLast x end)) flatten
      | GOpt a => Map (Optional (go a)) (fun r => match r with ROk x => TSome x | RErr _ => TNone end)
      | GRep a => Map (Repeat fuel (go a)) (fun '(l, _) => TMany l)
      | GCut a => MapErr (go a) (fun _ => EFatal)
      | GRef i =>
          match fuel with
          | 0 => closure (fun _ => OutOfFuel)
          | Datatypes.S fuel => Boxed (closure (fun s => parse (parser_on fuel (rules i)) s))
          end
      end in
    go e.
End On.

(** The same result with the rest of the input seen through [f]. *)
Definition map_rest {S S' O E} (f : S -> S') (c : comp (res S O E)) : comp (res S' O E) :=
  match c with
  | Ret (Ok x s) => Ret (Ok x (f s))
  | Ret (Err e s) => Ret (Err e (f s))
  | Panic => Panic
  | UB => UB
  | OutOfFuel => OutOfFuel
  end.

(** What was read between a position and a later one. *)
Definition read {T} (before after : list T) : list T := firstn (length before - length after) before.

(** All the patterns of a grammar. *)
Fixpoint patterns {T} (Q : list T -> Prop) (e : gexp T) : Prop :=
  match e with
  | GAtom p => Q p
  | GJoin a b | GOr a b => patterns Q a /\ patterns Q b
  | GOpt a | GRep a | GCut a => patterns Q a
  | _ => True
  end.

(** A pattern can be laid against a text: it is found, or the shorter one ends
    between two characters of the longer one. *)
Definition lies (p t : list char) : Prop :=
  prefix p t \/ (chars_len p <= chars_len t /\ boundary t (chars_len p)) \/
  (chars_len t < chars_len p /\ boundary p (chars_len t)).

(** ... wherever in the text. *)
Definition lies_anywhere (t p : list char) : Prop := forall a b, t = a ++ b -> lies p b.

(** A run over a sequence has this outcome; [later] is the sequence's own order
    of positions and [cont] what is left of it. *)
Definition outcome_on {S T} (later : S -> S -> Prop) (cont : S -> list T) (s : S)
    (r : comp (res S (gtree T) gerr)) (o : poutcome T) : Prop :=
  match o with
  | PSucc t rest => exists s', r = Ret (Ok t s') /\ later s s' /\ cont s' = rest
  | PFail => exists s', r = Ret (Err EMiss s') /\ later s s'
  | PCut => exists s', r = Ret (Err EFatal s') /\ later s s'
  end.

(** The grammar comes to a pattern that cannot be laid against the text there. *)
Inductive stumbles (rules : nat -> gexp char) : gexp char -> list char -> Prop :=
| st_atom p l : ~ lies p l -> stumbles rules (GAtom p) l
| st_join1 a b l : stumbles rules a l -> stumbles rules (GJoin a b) l
| st_join2 a b l t m : peg rules a l (PSucc t m) -> stumbles rules b m -> stumbles rules (GJoin a b) l
| st_or1 a b l : stumbles rules a l -> stumbles rules (GOr a b) l
| st_or2 a b l : peg rules a l PFail -> stumbles rules b l -> stumbles rules (GOr a b) l
| st_opt a l : stumbles rules a l -> stumbles rules (GOpt a) l
| st_rep1 a l : stumbles rules a l -> stumbles rules (GRep a) l
| st_rep2 a l t m : peg rules a l (PSucc t m) -> stumbles rules (GRep a) m -> stumbles rules (GRep a) l
| st_cut a l : stumbles rules a l -> stumbles rules (GCut a) l
| st_ref i l : stumbles rules (rules i) l -> stumbles rules (GRef i) l.
