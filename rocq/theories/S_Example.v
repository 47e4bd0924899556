(** * S_Example: the texts of expressions, without saying how they are parsed. *)
From Verif Require Export S_Seq M_Example.

(** Decimal numerals; leading zeros are allowed. *)
Definition digit (c : char) : Prop := (48 <= c <= 57)%N.
Inductive numeral : list char -> nat -> Prop :=
| num_one c : digit c -> numeral [c] (N.to_nat c - 48)
| num_more cs n c : numeral cs n -> digit c -> numeral (cs ++ [c]) (10 * n + (N.to_nat c - 48)).

(** At least one space. *)
Definition spaces (cs : list char) : Prop := cs <> [] /\ Forall (eq 32%N) cs.

Definition symbol (o : Op) : char :=
  match o with Add => 43 | Sub => 45 | Mul => 42 | Div => 47 end%N.

(** How tightly an operator and an expression hold together. *)
Definition strength (o : Op) : nat := match o with Add | Sub => 1 | Mul | Div => 2 end.
Definition tightness (e : Expr) : nat :=
  match e with BinOp _ o _ => strength o | ETerm _ => 3 end.

(** [writes e cs]: the text [cs] is a way of writing [e].  Parentheses are
    where [e] has them, and [e] must have them where the precedences and
    left-associativity ask for them. *)
Inductive writes : Expr -> list char -> Prop :=
| w_integer n cs : numeral cs n -> writes (ETerm (Integer n)) cs
| w_paren e cs : writes e cs -> writes (ETerm (Parenthesized e)) ([40%N] ++ cs ++ [41%N])
| w_bin l o r cl cr sp sp' :
    writes l cl -> writes r cr -> spaces sp -> spaces sp' ->
    strength o <= tightness l -> strength o < tightness r ->
    writes (BinOp l o r) (cl ++ sp ++ [symbol o] ++ sp' ++ cr).

(** Every number in it is at most [max]. *)
Fixpoint fits (max : nat) (e : Expr) : Prop :=
  match e with
  | BinOp l _ r => fits max l /\ fits max r
  | ETerm t => term_fits max t
  end
with term_fits (max : nat) (t : Term) : Prop :=
  match t with
  | Parenthesized e => fits max e
  | Integer n => n <= max
  end.

(** What may follow an expression: nothing, or a character that can neither
    continue a numeral nor introduce an operator. *)
Definition closed (rest : list char) : Prop :=
  match rest with
  | [] => True
  | c :: _ => ~ digit c /\ c <> 32%N
  end.

(** A character outside ASCII, or a numeral beyond [max]. *)
Definition trouble (max : nat) (cs : list char) : Prop :=
  (exists a c b, cs = a ++ c :: b /\ (128 <= c)%N) \/
  (exists a ds b n, cs = a ++ ds ++ b /\ numeral ds n /\ max < n).

(** Where a text breaks the parser.  A term breaks it when it is a numeral
    above [max], when it begins outside ASCII, when what follows its opening
    parenthesis breaks it, or when a character outside ASCII stands where the
    closing one belongs; an expression, when its first term does, or what
    follows a term and an operator. *)
Inductive term_breaks (max : nat) : list char -> Prop :=
| tb_numeral ds n rest : numeral ds n -> max < n -> (forall c r, rest = c :: r -> ~ digit c) ->
    term_breaks max (ds ++ rest)
| tb_wide c rest : (128 <= c)%N -> term_breaks max (c :: rest)
| tb_inside cs : breaks max cs -> term_breaks max (40%N :: cs)
| tb_close e cs c rest : writes e cs -> (128 <= c)%N -> term_breaks max (40%N :: cs ++ c :: rest)
with breaks (max : nat) : list char -> Prop :=
| b_term cs : term_breaks max cs -> breaks max cs
| b_after t ct sp o sp' cs : writes (ETerm t) ct -> spaces sp -> spaces sp' -> breaks max cs ->
    breaks max (ct ++ sp ++ [symbol o] ++ sp' ++ cs).

(** Some expression is written at the start of the text. *)
Definition starts_expression (cs : list char) : Prop :=
  exists e a b, cs = a ++ b /\ writes e a.

(** [usize] formatted with [{}]: decimal, no leading zeros. *)
Fixpoint decimal_within (fuel n : nat) : list char :=
  match fuel with
  | 0 => []
  | Datatypes.S fuel =>
      (if n <? 10 then [] else decimal_within fuel (n / 10)) ++ [(48 + N.of_nat (n mod 10))%N]
  end.
Definition decimal (n : nat) : list char := decimal_within (Datatypes.S n) n.

(** No segment that is empty comes before text. *)
Definition no_gaps {S} `{Sequence S str} (s : S) : Prop :=
  forall a b, segments s = a ++ Str [] :: b -> concat (map chars b) = [].

(** Sequences of text whose positions can be advanced and rewound. *)
Record lawful_positions {S A} `{Sequence S str} `{RewindSequence S A} (reach : S -> S -> Prop) : Prop := {
  lp_rewind : lawful_rewind reach;
  lp_advance : forall s a b, text s = a ++ b ->
    exists s', advance s (chars_len a) = Ret s' /\ text s' = b /\ reach s s'
}.
Arguments lp_rewind {S A _ _ reach} _.
Arguments lp_advance {S A _ _ reach} _ _ _ _ _.

(** Texts in pieces, in two forms: any pieces, and pieces none of which is
    empty (a first character and more).  Positions can be remembered. *)
Record pieces := Pieces { pc_segs : list (list char) }.
Fixpoint drop_bytes (n : nat) (segs : list (list char)) : option (list (list char)) :=
  match segs with
  | [] => if n =? 0 then Some [] else None
  | x :: rest =>
      if n <=? chars_len x
      then match split_chars x n with Some (_, b) => Some (b :: rest) | None => None end
      else drop_bytes (n - chars_len x) rest
  end.
#[export] Instance pieces_sequence : Sequence pieces str := {
  segments := fun s => map Str (pc_segs s);
  advance := fun s n => match drop_bytes n (pc_segs s) with Some x => Ret (Pieces x) | None => Panic end
}.
#[export] Instance pieces_rewind : RewindSequence pieces pieces := {
  anchor := fun s => s; rewind := fun _ a => Ret a
}.

Record full_pieces := FullPieces { fp_segs : list (char * list char) }.
Definition fp_list (s : full_pieces) : list (list char) := map (fun x => fst x :: snd x) (fp_segs s).
Fixpoint non_empty (segs : list (list char)) : list (char * list char) :=
  match segs with
  | [] => []
  | [] :: segs => non_empty segs
  | (c :: x) :: segs => (c, x) :: non_empty segs
  end.
#[export] Instance full_pieces_sequence : Sequence full_pieces str := {
  segments := fun s => map Str (fp_list s);
  advance := fun s n => match drop_bytes n (fp_list s) with
                        | Some x => Ret (FullPieces (non_empty x)) | None => Panic end
}.
#[export] Instance full_pieces_rewind : RewindSequence full_pieces full_pieces := {
  anchor := fun s => s; rewind := fun _ a => Ret a
}.
