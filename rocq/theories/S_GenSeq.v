(** * S_GenSeq: what the generic sequence should do, on flat lists. *)
From Verif Require Import M_GenSeq.

Set Implicit Arguments.

(** ** C45: the buffer as a flat list *)
Inductive bcall (T : Type) := BCommit (buf : list T) | BAdvance (n : nat) | BSegments.
Inductive breply (T : Type) := RCommitted | RRemain (n : nat) | RSegments (ss : list (list T)).
Arguments BCommit {T}. Arguments BAdvance {T}. Arguments BSegments {T}.
Arguments RCommitted {T}. Arguments RRemain {T}. Arguments RSegments {T}.

(** [answers pending call reply pending'] *)
Definition answers {T} (pending : list T) (c : bcall T) (r : breply T) (pending' : list T) : Prop :=
  match c, r with
  | BCommit buf, RCommitted => pending' = pending ++ buf
  | BAdvance n, RRemain m => m = n - length pending /\ pending' = skipn n pending
  | BSegments, RSegments ss => concat ss = pending /\ pending' = pending
  | _, _ => False
  end.

Inductive answers_all {T} : list T -> list (bcall T) -> list (breply T) -> list T -> Prop :=
| aa_nil p : answers_all p [] [] p
| aa_cons p c r p1 cs rs p2 :
    answers p c r p1 -> answers_all p1 cs rs p2 -> answers_all p (c :: cs) (r :: rs) p2.

(** What is pending after some calls. *)
Fixpoint pending_of {T} (cs : list (bcall T)) (p : list T) : list T :=
  match cs with
  | [] => p
  | BCommit b :: cs' => pending_of cs' (p ++ b)
  | BAdvance n :: cs' => pending_of cs' (skipn n p)
  | BSegments :: cs' => pending_of cs' p
  end.

(** The calls made on the real buffer; the loader's side appears as [commit_to]. *)
Definition gperform {T} (fuel : nat) (c : bcall T) (st : heap T * nat * gbuffer)
  : comp (breply T * (heap T * nat * gbuffer)) :=
  let '(h, tail, b) := st in
  match c with
  | BCommit buf => ' (h', tail') <- commit_to h tail buf ;; Ret (RCommitted, (h', tail', b))
  | BAdvance n => ' (b', m) <- gadvance fuel h b n ;; Ret (RRemain m, (h, tail, b'))
  | BSegments => ss <- gcollect fuel h (gsegments b) ;; Ret (RSegments ss, st)
  end.

Fixpoint gperform_all {T} (fuel : nat) (cs : list (bcall T)) (st : heap T * nat * gbuffer)
  : comp (list (breply T) * (heap T * nat * gbuffer)) :=
  match cs with
  | [] => Ret ([], st)
  | c :: cs' =>
      ' (r, st1) <- gperform fuel c st ;;
      ' (rs, st2) <- gperform_all fuel cs' st1 ;;
      Ret (r :: rs, st2)
  end.

Definition gstart {T} : heap T * nat * gbuffer := ([None], 0, buffer_new).

(** [advance] while the loader commits: any number of commits before each look
    at the chain.  [bs]: what was committed before the last look. *)
Inductive adv_while {T} : heap T -> nat -> adv -> list (list T) -> heap T -> nat -> gbuffer * nat -> Prop :=
| aw_commit h tail a b h1 tail1 bs h2 tail2 r :
    commit_to h tail b = Ret (h1, tail1) -> adv_while h1 tail1 a bs h2 tail2 r ->
    adv_while h tail a (b :: bs) h2 tail2 r
| aw_turn h tail a a1 bs h2 tail2 r :
    adv_turn h a = Ret (inl a1) -> adv_while h tail a1 bs h2 tail2 r ->
    adv_while h tail a bs h2 tail2 r
| aw_end h tail a a1 :
    adv_turn h a = Ret (inr a1) -> adv_while h tail a [] h tail (adv_end a1).

(** ** C46: an iterator is a queue *)
Inductive icall (T : Type) := INext | ICommit (buf : list T).
Arguments INext {T}. Arguments ICommit {T}.

(** The replies to the [next] calls. *)
Fixpoint queue_replies {T} (q : list (list T)) (cs : list (icall T)) : list (option (list T)) :=
  match cs with
  | [] => []
  | INext :: cs' =>
      match q with
      | [] => None :: queue_replies [] cs'
      | s :: q' => Some s :: queue_replies q' cs'
      end
  | ICommit b :: cs' => queue_replies (q ++ [b]) cs'
  end.

Fixpoint iterate {T} (cs : list (icall T)) (h : heap T) (tail : nat) (i : giter) : comp (list (option (list T))) :=
  match cs with
  | [] => Ret []
  | INext :: cs' => ' (o, i') <- gnext h i ;; rs <- iterate cs' h tail i' ;; Ret (o :: rs)
  | ICommit b :: cs' => ' (h', tail') <- commit_to h tail b ;; iterate cs' h' tail' i
  end.

(** ** C47 *)
(** The items a writer accepted, from what it was told and answered. *)
Definition accept {T} (l : list T) (e : wevent T) : list T :=
  match e with
  | PushOk x => l ++ [x]
  | PushErr _ => l
  | Filled xs => l ++ xs
  | Shrunk n => firstn n l
  | Edited xs => stored xs l
  end.
Definition accepted {T} (tr : list (wevent T)) : list T := fold_left accept tr [].

Inductive lcall := LLoad (grow : nat -> nat) | LForce.

(** What each load told us. *)
Definition record (T E : Type) : Type := (result load_info E * (list (wevent T) * wend)).

Fixpoint load_all {T E G} (src : source T E G) (cs : list lcall) (l : loader T G)
  : comp (list (record T E) * loader T G) :=
  match cs with
  | [] => Ret ([], l)
  | LLoad grow :: cs' =>
      ' (i, l1, tr) <- load src grow l ;;
      ' (rs, l2) <- load_all src cs' l1 ;;
      Ret ((i, tr) :: rs, l2)
  | LForce :: cs' => l1 <- force_commit l ;; load_all src cs' l1
  end.

Definition not_cancelled {T E} (r : record T E) : Prop :=
  snd (snd r) = EndAdvance \/ snd (snd r) = EndFinish.

(** What the sequence holds: the segments from the first node on. *)
Inductive chain {T} (h : heap T) : nat -> list (list T) -> nat -> Prop :=
| chain_end n : nth_error h n = Some None -> chain h n [] n
| chain_node n b m ss tail :
    nth_error h n = Some (Some (b, m)) -> chain h m ss tail -> chain h n (b :: ss) tail.

Definition committed {T G} (l : loader T G) (ss : list (list T)) : Prop := chain (ld_heap l) 0 ss (ld_tail l).

(** ** C48 *)
(** What the code keeps of a chunk when the writer has [spare] free cells. *)
Definition kept {T} (spare : nat) (chunk : list T) : list T :=
  if Nat.even spare then firstn (spare / 2) chunk else chunk.

(** What it keeps of all chunks, with [len] items in a buffer of [cap] cells. *)
Fixpoint keeps {T} (grow : nat -> nat) (len cap : nat) (chunks : list (list T)) : list T :=
  match chunks with
  | [] => []
  | c :: cs =>
      let '(len0, cap0) := if length c <=? cap - len then (len, cap) else (0, grow (length c)) in
      let k := kept (cap0 - len0) c in
      k ++ keeps grow (len0 + length k) cap0 cs
  end.

(** The least odd number from [n] on. *)
Definition odd_up (n : nat) : nat := if Nat.even n then S n else n.

(** Growth to the least odd number; for one item two cells will do as well. *)
Definition odd_growth (grow : nat -> nat) : Prop :=
  (grow 1 = 1 \/ grow 1 = 2) /\ forall n, 2 <= n -> grow n = odd_up n.

(** ** C49 *)
(** A well-formed vector with the items [xs]. *)
Definition holds {T} (v : vec T) (xs : list T) : Prop :=
  exists rest, cells v = map Some xs ++ rest /\ vlen v = length xs.

Fixpoint push_many {W T E R} (B : bwriter W T E R) (w : W) (xs : list T) : comp (W * list bool) :=
  match xs with
  | [] => Ret (w, [])
  | x :: xs' => ' (w1, ok) <- push_item B w x ;; ' (w2, oks) <- push_many B w1 xs' ;; Ret (w2, ok :: oks)
  end.
