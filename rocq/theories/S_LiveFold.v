(** * S_LiveFold: the same iteration on segments that are all there, on a plain
    list of items, and with its own steps counted. *)
From Verif Require Export M_LiveFold S_EndToEnd S_LiveJoinEnds.

Section Spec.
  Context {T : Type} (eqb : T -> T -> bool) {St O E : Type} (it : live_iter T St O E).

  (** As an iterative parser of M_Iter, on segments. *)
  Definition built_iter : M_Iter.iter St (chunked T) O E :=
    IT (li_init it) (fun st input =>
      r <- parse (built eqb (li_next it st)) input ;;
      match r with
      | Ok (v, st') s => Ret (st', Ok v s)
      | Err (e, st') s => Ret (st', Err e s)
      end).

  (** From state [st] on the items [l] it gives [vs]; that leaves its state and
      the items so. *)
  Inductive given : St -> list T -> list O -> St -> list T -> Prop :=
  | gv_none st l : given st l [] st l
  | gv_more st l v st1 l1 vs st2 l2 :
      reads eqb (li_next it st) l = (ROk (Some v, st1), l1) -> given st1 l1 vs st2 l2 ->
      given st l (v :: vs) st2 l2.
  (** It gives [vs] and stops; [rest] is left. *)
  Definition gives (st : St) (l : list T) (vs : list O) (rest : list T) : Prop :=
    exists st1 l1 st2, given st l vs st1 l1 /\ reads eqb (li_next it st1) l1 = (ROk (None, st2), rest).
  (** It gives [vs] and fails with [e]. *)
  Definition breaks (st : St) (l : list T) (vs : list O) (e : E) (rest : list T) : Prop :=
    exists st1 l1 st2, given st l vs st1 l1 /\ reads eqb (li_next it st1) l1 = (RErr (e, st2), rest).

  (** The primitive parsers that at most [n] rounds start on these segments. *)
  Fixpoint iter_leaves (n : nat) (st : St) (q : list (list T)) : nat :=
    match n with
    | 0 => 0
    | S n => leaves eqb (li_next it st) q +
             match parse (built eqb (li_next it st)) (Chunked q) with
             | Ret (Ok (Some _, st') s) => iter_leaves n st' (ck_segs s)
             | _ => 0
             end
    end.

  (** The loop of fold after [j] calls of [parse_next] and [k] steps of the
      primitive parsers started in them. *)
  Inductive fold_counts modulus {Acc} (f : Acc -> O -> Acc)
    : St -> Acc -> @shared T -> gbuffer -> nat -> nat -> @progress T Acc E -> Prop :=
  | fc_begin st acc x b : fold_counts modulus f st acc x b 0 0 AtWork
  | fc_work st acc x b k : counts eqb modulus _ _ (li_next it st) x b k AtWork ->
      fold_counts modulus f st acc x b 1 k AtWork
  | fc_fails st acc x b k e st' x0 b0 : counts eqb modulus _ _ (li_next it st) x b k (Answered (Failed (e, st') x0 b0)) ->
      fold_counts modulus f st acc x b 1 k (Answered (Failed e x0 b0))
  | fc_stop st acc x b k st' x0 b0 : counts eqb modulus _ _ (li_next it st) x b k (Answered (Took (None, st') x0 b0)) ->
      fold_counts modulus f st acc x b 1 k (Answered (Took acc x0 b0))
  | fc_more st acc x b k0 v st' x0 b0 j k1 r :
      counts eqb modulus _ _ (li_next it st) x b k0 (Answered (Took (Some v, st') x0 b0)) ->
      fold_counts modulus f st' (f acc v) x0 b0 j k1 r -> fold_counts modulus f st acc x b (S j) (k0 + k1) r.
End Spec.

(** All items up to one that says stop. *)
Definition until {T} (eqb : T -> T -> bool) (stop : T) : live_iter T unit T (Miss unit) :=
  LI tt (fun _ => PMapErr (PMap PAny (fun x => (if eqb x stop then None else Some x, tt))) (fun e => (e, tt))).
Definition snoc {X} (l : list X) (x : X) : list X := l ++ [x].

(** The fields of a text that one item separates, the last of them ended by the
    end: the next item, if there is one. *)
Definition maybe_looker {T} : @looker T (option T) :=
  Looker tt (fun _ segment =>
    match segment with
    | Some [] => inl tt
    | Some (x :: _) => inr (VTake 1 (Some x))
    | None => inr (VTake 0 None)
    end).
(** The state says whether the last field was given. *)
Definition fields {T} (eqb : T -> T -> bool) (sep : T) : live_iter T bool (list T) (Miss unit) :=
  LI false (fun last : bool =>
    if last then PDone (None, true)
    else PThen (fun e => (e, false)) (while (fun x => negb (eqb x sep))) (fun field =>
         PThen (fun e => (e, false)) (PLook maybe_looker) (fun after =>
         PDone (Some field, match after with Some _ => false | None => true end)))).
(** The text of these fields. *)
Fixpoint joined_by {T} (sep : T) (vs : list (list T)) : list T :=
  match vs with
  | [] => []
  | [v] => v
  | v :: vs => v ++ sep :: joined_by sep vs
  end.
