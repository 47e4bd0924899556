(** * S_Early: what a parser may read of a plain list of items when one primitive
    parser in it may be told of the end too early (C84, C110). *)
From Verif Require Export S_EndToEnd S_LiveFold.

Section Early.
  Context {T : Type} (eqb : T -> T -> bool).

  (** How the items are cut into segments makes no difference, and a parser of
      the user's own takes no more than it saw. *)
  Fixpoint itemwise {O E} (p : lparser T O E) : Prop :=
    match p with
    | PAny | PThe _ => True
    | PAtom pat => length pat = 1
    | PLook k => honest k /\ steady k /\ forall q, settle k (lk_init k) q = settle k (lk_init k) (one_each (concat q))
    | PJoin p0 p1 => itemwise p0 /\ itemwise p1
    | PMap p _ => itemwise p
    | PMapErr p _ => itemwise p
    | PAndThen _ p _ => itemwise p
    | PUnify _ _ p => itemwise p
    | PUnifyErr _ _ p => itemwise p
    | PRef p => itemwise p
    | PBoxed p => itemwise p
    | PDone _ | PFail _ => True
    | PThen _ p k => itemwise p /\ forall o, itemwise (k o)
    end.

  Definition primitive {O E} (p : lparser T O E) : Prop :=
    match p with PAny | PThe _ | PAtom _ | PLook _ => True | _ => False end.

  (** On these items the parser may give this answer and leave those.  At most one
      primitive parser is told of the end too early: it reads [seen] as if there
      were nothing behind it.  The flags say whether that has happened, before and
      after. *)
  Inductive may_read : forall O E, lparser T O E -> bool -> list T -> result O E -> list T -> bool -> Prop :=
  | mr_whole O E (p : lparser T O E) told l r rest :
      primitive p -> reads eqb p l = (r, rest) -> may_read _ _ p told l r rest told
  | mr_early O E (p : lparser T O E) seen unseen r rest :
      primitive p -> reads eqb p seen = (r, rest) -> may_read _ _ p false (seen ++ unseen) r (rest ++ unseen) true
  | mr_join_first O0 E0 O1 E1 (p0 : lparser T O0 E0) (p1 : lparser T O1 E1) t l e l0 t0 :
      may_read _ _ p0 t l (RErr e) l0 t0 -> may_read _ _ (PJoin p0 p1) t l (RErr (First e)) l0 t0
  | mr_join O0 E0 O1 E1 (p0 : lparser T O0 E0) (p1 : lparser T O1 E1) t l o0 l0 t0 r l1 t1 :
      may_read _ _ p0 t l (ROk o0) l0 t0 -> may_read _ _ p1 t0 l0 r l1 t1 ->
      may_read _ _ (PJoin p0 p1) t l (match r with ROk o1 => ROk (o0, o1) | RErr e => RErr (Last e) end) l1 t1
  | mr_map O E V (p : lparser T O E) (f : O -> V) t l r l0 t0 : may_read _ _ p t l r l0 t0 ->
      may_read _ _ (PMap p f) t l (match r with ROk o => ROk (f o) | RErr e => RErr e end) l0 t0
  | mr_map_err O E V (p : lparser T O E) (f : E -> V) t l r l0 t0 : may_read _ _ p t l r l0 t0 ->
      may_read _ _ (PMapErr p f) t l (match r with ROk o => ROk o | RErr e => RErr (f e) end) l0 t0
  | mr_and_then O E O' E' (from : E -> E') (p : lparser T O E) (f : O -> result O' E') t l r l0 t0 : may_read _ _ p t l r l0 t0 ->
      may_read _ _ (PAndThen from p f) t l (match r with ROk o => f o | RErr e => RErr (from e) end) l0 t0
  | mr_unify T0 T1 V E (into0 : T0 -> V) (into1 : T1 -> V) (p : lparser T (Either T0 T1) E) t l r l0 t0 : may_read _ _ p t l r l0 t0 ->
      may_read _ _ (PUnify into0 into1 p) t l
        (match r with ROk (First a) => ROk (into0 a) | ROk (Last a) => ROk (into1 a) | RErr e => RErr e end) l0 t0
  | mr_unify_err O T0 T1 V (into0 : T0 -> V) (into1 : T1 -> V) (p : lparser T O (Either T0 T1)) t l r l0 t0 : may_read _ _ p t l r l0 t0 ->
      may_read _ _ (PUnifyErr into0 into1 p) t l
        (match r with ROk o => ROk o | RErr (First e) => RErr (into0 e) | RErr (Last e) => RErr (into1 e) end) l0 t0
  | mr_ref O E (p : lparser T O E) t l r l0 t0 : may_read _ _ p t l r l0 t0 -> may_read _ _ (PRef p) t l r l0 t0
  | mr_boxed O E (p : lparser T O E) t l r l0 t0 : may_read _ _ p t l r l0 t0 -> may_read _ _ (PBoxed p) t l r l0 t0
  | mr_done O E (o : O) t l : may_read O E (PDone o) t l (ROk o) l t
  | mr_fail O E (e : E) t l : may_read O E (PFail e) t l (RErr e) l t
  | mr_then_fails O E O' E' (from : E -> E') (p : lparser T O E) (c : O -> lparser T O' E') t l e l0 t0 :
      may_read _ _ p t l (RErr e) l0 t0 -> may_read _ _ (PThen from p c) t l (RErr (from e)) l0 t0
  | mr_then O E O' E' (from : E -> E') (p : lparser T O E) (c : O -> lparser T O' E') t l o l0 t0 r l1 t1 :
      may_read _ _ p t l (ROk o) l0 t0 -> may_read _ _ (c o) t0 l0 r l1 t1 -> may_read _ _ (PThen from p c) t l r l1 t1.

  (** An iterative parser in state [st] may give [vs], which leaves its state and
      the items so. *)
  Inductive may_give {St O E} (it : live_iter T St O E) : St -> bool -> list T -> list O -> St -> list T -> bool -> Prop :=
  | mg_none st t l : may_give it st t l [] st l t
  | mg_more st t l v st1 l1 t1 vs st2 l2 t2 :
      may_read _ _ (li_next it st) t l (ROk (Some v, st1)) l1 t1 -> may_give it st1 t1 l1 vs st2 l2 t2 ->
      may_give it st t l (v :: vs) st2 l2 t2.
End Early.

(** What a run answered, and where it left the sequence. *)
Definition answer {T O E} (r : @outcome T O E) : result O E := match r with Took o _ _ => ROk o | Failed e _ _ => RErr e end.
Definition shared_of {T O E} (r : @outcome T O E) : @shared T := match r with Took _ x _ | Failed _ x _ => x end.
Definition buffer_of {T O E} (r : @outcome T O E) : gbuffer := match r with Took _ _ b | Failed _ _ b => b end.

(** These pieces with these items between them. *)
Fixpoint laced {T} (vs : list (list T)) (between : list T) : list T :=
  match vs with
  | [] => []
  | v :: vs => v ++ match between with [] => [] | y :: between => y :: laced vs between end
  end.
(** How many of these items are not this one. *)
Definition others {T} (eqb : T -> T -> bool) (x : T) (l : list T) : nat := length (filter (fun y => negb (eqb y x)) l).
