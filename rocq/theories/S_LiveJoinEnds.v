(** * S_LiveJoinEnds: executions of joined parsers in which their own steps are
    counted (C82). *)
From Verif Require Export S_LiveJoin S_LiveEnds.

Section Count.
  Context {T : Type} (eqb : T -> T -> bool) (modulus : nat).

  (** How far a parser has got: at work, or with its answer. *)
  Inductive progress (O E : Type) := AtWork | Answered (r : @outcome T O E).
  Arguments AtWork {O E}. Arguments Answered {O E} r.

  (** A primitive parser from its start, after [k] steps of its own and any
      number of steps of loaders, in any order. *)
  Inductive prim_counts O (l : @looker T O) (x : @shared T) (b : gbuffer) : nat -> progress O (Miss unit) -> Prop :=
  | pc_at_work k s : goes modulus k (LLook b (lk_init l) (sinit x b)) s -> ~ answered s -> prim_counts O l x b k AtWork
  | pc_took k h o a : goes modulus k (LLook b (lk_init l) (sinit x b)) (LAdvance h o a) -> a_pc a = AReady ->
      prim_counts O l x b k (Answered (Took o (a_sh a) (a_buf a)))
  | pc_missed k b' s : goes modulus k (LLook b (lk_init l) (sinit x b)) (LMiss b' s) ->
      prim_counts O l x b k (Answered (Failed (MkMiss tt) (s_sh s) b')).

  (** The answer of a parser made into that of the parser around it. *)
  Definition answer_map {O E O' E'} (f : @outcome T O E -> outcome O' E') (p : progress O E) : progress O' E' :=
    match p with AtWork => AtWork | Answered r => Answered (f r) end.

  (** The same of a joined parser; the second of two starts on what the first
      hands back. *)
  Inductive counts : forall O E, lparser T O E -> @shared T -> gbuffer -> nat -> progress O E -> Prop :=
  | ct_any x b k r : prim_counts T any_looker x b k r -> counts _ _ PAny x b k r
  | ct_the y x b k r : prim_counts unit (the_looker eqb y) x b k r -> counts _ _ (PThe y) x b k r
  | ct_atom pat x b k r : prim_counts unit (atom_looker eqb pat) x b k r -> counts _ _ (PAtom pat) x b k r
  | ct_look O (l : @looker T O) x b k r : prim_counts O l x b k r -> counts _ _ (PLook l) x b k r
  | ct_first O0 E0 O1 E1 (p0 : lparser T O0 E0) (p1 : lparser T O1 E1) x b k :
      counts _ _ p0 x b k AtWork -> counts _ _ (PJoin p0 p1) x b k AtWork
  | ct_first_fails O0 E0 O1 E1 (p0 : lparser T O0 E0) (p1 : lparser T O1 E1) x b k e x0 b0 :
      counts _ _ p0 x b k (Answered (Failed e x0 b0)) ->
      counts _ _ (PJoin p0 p1) x b k (Answered (Failed (First e) x0 b0))
  | ct_last O0 E0 O1 E1 (p0 : lparser T O0 E0) (p1 : lparser T O1 E1) x b k0 o0 x0 b0 k1 r :
      counts _ _ p0 x b k0 (Answered (Took o0 x0 b0)) -> counts _ _ p1 x0 b0 k1 r ->
      counts _ _ (PJoin p0 p1) x b (k0 + k1)
        (answer_map (fun r => match r with
                              | Took o1 x1 b1 => Took (o0, o1) x1 b1
                              | Failed e x1 b1 => Failed (Last e) x1 b1
                              end) r)
  | ct_map O E V (p : lparser T O E) (f : O -> V) x b k r : counts _ _ p x b k r ->
      counts _ _ (PMap p f) x b k
        (answer_map (fun r => match r with
                              | Took o x0 b0 => Took (f o) x0 b0
                              | Failed e x0 b0 => Failed e x0 b0
                              end) r)
  | ct_map_err O E V (p : lparser T O E) (f : E -> V) x b k r : counts _ _ p x b k r ->
      counts _ _ (PMapErr p f) x b k
        (answer_map (fun r => match r with
                              | Took o x0 b0 => Took o x0 b0
                              | Failed e x0 b0 => Failed (f e) x0 b0
                              end) r)
  | ct_and_then O E O' E' (from : E -> E') (p : lparser T O E) (f : O -> result O' E') x b k r : counts _ _ p x b k r ->
      counts _ _ (PAndThen from p f) x b k
        (answer_map (fun r => match r with
                              | Took o x0 b0 => match f o with ROk o' => Took o' x0 b0 | RErr e => Failed e x0 b0 end
                              | Failed e x0 b0 => Failed (from e) x0 b0
                              end) r)
  | ct_unify T0 T1 V E (into0 : T0 -> V) (into1 : T1 -> V) (p : lparser T (Either T0 T1) E) x b k r : counts _ _ p x b k r ->
      counts _ _ (PUnify into0 into1 p) x b k
        (answer_map (fun r => match r with
                              | Took o x0 b0 => Took (either_unify into0 into1 o) x0 b0
                              | Failed e x0 b0 => Failed e x0 b0
                              end) r)
  | ct_unify_err O T0 T1 V (into0 : T0 -> V) (into1 : T1 -> V) (p : lparser T O (Either T0 T1)) x b k r : counts _ _ p x b k r ->
      counts _ _ (PUnifyErr into0 into1 p) x b k
        (answer_map (fun r => match r with
                              | Took o x0 b0 => Took o x0 b0
                              | Failed e x0 b0 => Failed (either_unify into0 into1 e) x0 b0
                              end) r)
  | ct_ref O E (p : lparser T O E) x b k r : counts _ _ p x b k r -> counts _ _ (PRef p) x b k r
  | ct_boxed O E (p : lparser T O E) x b k r : counts _ _ p x b k r -> counts _ _ (PBoxed p) x b k r
  | ct_done O E (o : O) x b : counts O E (PDone o) x b 0 (Answered (Took o x b))
  | ct_fail O E (e : E) x b : counts O E (PFail e) x b 0 (Answered (Failed e x b))
  | ct_then O E O' E' (from : E -> E') (p : lparser T O E) (c : O -> lparser T O' E') x b k :
      counts _ _ p x b k AtWork -> counts _ _ (PThen from p c) x b k AtWork
  | ct_then_fails O E O' E' (from : E -> E') (p : lparser T O E) (c : O -> lparser T O' E') x b k e x0 b0 :
      counts _ _ p x b k (Answered (Failed e x0 b0)) ->
      counts _ _ (PThen from p c) x b k (Answered (Failed (from e) x0 b0))
  | ct_then_on O E O' E' (from : E -> E') (p : lparser T O E) (c : O -> lparser T O' E') x b k0 o x0 b0 k1 r :
      counts _ _ p x b k0 (Answered (Took o x0 b0)) -> counts _ _ (c o) x0 b0 k1 r ->
      counts _ _ (PThen from p c) x b (k0 + k1) r.

  (** The number of primitive parsers that it starts on these segments, given
      all at once. *)
  Fixpoint leaves {O E} (p : lparser T O E) (q : list (list T)) : nat :=
    match p with
    | PAny | PThe _ | PAtom _ | PLook _ => 1
    | PJoin p0 p1 =>
        leaves p0 q + match parse (built eqb p0) (Chunked q) with
                      | Ret (Ok _ s) => leaves p1 (ck_segs s)
                      | _ => 0
                      end
    | PMap p _ => leaves p q
    | PMapErr p _ => leaves p q
    | PAndThen _ p _ => leaves p q
    | PUnify _ _ p => leaves p q
    | PUnifyErr _ _ p => leaves p q
    | PRef p => leaves p q
    | PBoxed p => leaves p q
    | PDone _ | PFail _ => 0
    | PThen _ p c =>
        leaves p q + match parse (built eqb p) (Chunked q) with
                     | Ret (Ok o s) => leaves (c o) (ck_segs s)
                     | _ => 0
                     end
    end.
End Count.
Arguments AtWork {T O E}. Arguments Answered {T O E} r.
