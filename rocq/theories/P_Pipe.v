(** * P_Pipe: property C99, rearranging iterative pipelines. *)
From Verif Require Import M_Seq M_Prim L_Pipe.

Section Laws.
  Context {S A : Type} {RW : RewindSequence S A}.

  (** ** Inside a pipeline and under a consumer *)

  Theorem C99_interchangeable_is_same {St1 St2 O E} (p : diter St1 S O E) (q : diter St2 S O E) :
    interchangeable p q -> same_to_the_end p q.
  Proof. intros (H1 & H2). split; now apply past_end. Qed.

  (** Either kind of sameness survives every further stage. *)
  Theorem C99_inside {St1 St2 O E} past (p : diter St1 S O E) (q : diter St2 S O E) : same_pipe past p q ->
    (forall T (f : O -> T), same_pipe past (MapEach p f) (MapEach q f)) /\
    (forall T (f : O -> option T), same_pipe past (MapWhile p f) (MapWhile q f)) /\
    (forall T E' (PE : ParseError E') (from : E -> E') (f : O -> result T E'),
       same_pipe past (TryMapEach from p f) (TryMapEach from q f)) /\
    (forall T X (x : X) (f : X -> O -> X * T), same_pipe past (Scan p x f) (Scan q x f)) /\
    (forall n, same_pipe past (Take p n) (Take q n)) /\
    same_pipe past (IterRef p) (IterRef q).
  Proof.
    intros (H1 & H2).
    split. { intros T f. split; [exact (in_map_each past _ _ H1 f)|exact (in_map_each past _ _ H2 f)]. }
    split. { intros T f. split; [exact (in_map_while past _ _ H1 f)|exact (in_map_while past _ _ H2 f)]. }
    split. { intros T E' PE from f. split; [exact (in_try_map_each past _ _ H1 from f)|exact (in_try_map_each past _ _ H2 from f)]. }
    split. { intros T X x f. split; [exact (in_scan past _ _ H1 x f)|exact (in_scan past _ _ H2 x f)]. }
    split. { intros n. split; [exact (in_take past _ _ H1 n)|exact (in_take past _ _ H2 n)]. }
    split; assumption.
  Qed.

  (** [fold] and [collect] stop at the end. *)
  Theorem C99_fold {St1 St2 O E Acc} fuel (p : diter St1 S O E) (q : diter St2 S O E) (acc : Acc) f s : same_to_the_end p q ->
    parse (Fold fuel p acc f) s = parse (Fold fuel q acc f) s /\
    parse_once (Fold fuel p acc f) s = parse_once (Fold fuel q acc f) s.
  Proof. intros (H1 & H2). split; now apply in_fold. Qed.
  Theorem C99_collect {St1 St2 O E C} fuel (p : diter St1 S O E) (q : diter St2 S O E) (c : C) ext s : same_to_the_end p q ->
    parse (Collect c ext fuel p) s = parse (Collect c ext fuel q) s /\
    parse_once (Collect c ext fuel p) s = parse_once (Collect c ext fuel q) s.
  Proof. intros (H1 & H2). split; now apply in_collect. Qed.

  (** ** Stages that fuse, for whoever asks however often *)

  Ltac law R0 := split; (apply bisim with (R := R0); [|cbn; auto]).
  Ltac ask := destruct (it_next _ _ _) as [[? [[?|] ?|? ?]]| | |]; cbn; auto.

  Section Fuse.
    Context {St O E : Type} (p : diter St S O E).

    Theorem C99_map_each_id : interchangeable (MapEach p (fun x => x)) p.
    Proof. law (@eq St); intros a b i <-; cbn; unfold map_each_next; ask. Qed.
    Theorem C99_map_each_map_each {T U} (f : O -> T) (g : T -> U) :
      interchangeable (MapEach (MapEach p f) g) (MapEach p (fun x => g (f x))).
    Proof. law (@eq St); intros a b i <-; cbn; unfold map_each_next; cbn; unfold map_each_next; ask. Qed.
    Theorem C99_map_each_map_while {T U} (f : O -> T) (g : T -> option U) :
      interchangeable (MapWhile (MapEach p f) g) (MapWhile p (fun x => g (f x))).
    Proof. law (@eq St); intros a b i <-; cbn; unfold map_while_next; cbn; unfold map_each_next; ask. Qed.
    Theorem C99_map_while_map_each {T U} (f : O -> option T) (g : T -> U) :
      interchangeable (MapEach (MapWhile p f) g) (MapWhile p (fun x => option_map g (f x))).
    Proof. law (@eq St); intros a b i <-; cbn; unfold map_each_next; cbn; unfold map_while_next; ask. Qed.
    Theorem C99_map_while_map_while {T U} (f : O -> option T) (g : T -> option U) :
      interchangeable (MapWhile (MapWhile p f) g) (MapWhile p (fun x => match f x with Some y => g y | None => None end)).
    Proof. law (@eq St); intros a b i <-; cbn; unfold map_while_next; cbn; unfold map_while_next; ask. Qed.
    Theorem C99_map_each_is_map_while {T} (f : O -> T) : interchangeable (MapEach p f) (MapWhile p (fun x => Some (f x))).
    Proof. law (@eq St); intros a b i <-; cbn; unfold map_each_next, map_while_next; ask. Qed.
    Theorem C99_map_while_is_try_map_each {T} {PE : ParseError E} (f : O -> option T) (e : E) : should_terminate e = false ->
      interchangeable (MapWhile p f) (TryMapEach (fun x => x) p (fun x => match f x with Some y => ROk y | None => RErr e end)).
    Proof.
      intros HE. law (@eq St); intros a b i <-; cbn; unfold map_while_next, try_map_each_next; ask;
        destruct (f _); cbn; auto; rewrite HE; cbn; auto.
    Qed.
    Theorem C99_map_each_try_map_each {T U E'} {PE : ParseError E'} (from : E -> E') (f : O -> T) (g : T -> result U E') :
      interchangeable (TryMapEach from (MapEach p f) g) (TryMapEach from p (fun x => g (f x))).
    Proof.
      law (@eq St); intros a b i <-; cbn; unfold try_map_each_next; cbn; unfold map_each_next; ask;
        destruct (g _); cbn; auto; destruct (should_terminate e); cbn; auto.
    Qed.
    Theorem C99_map_each_is_scan {T X} (x : X) (f : O -> T) : interchangeable (MapEach p f) (Scan p x (fun st y => (st, f y))).
    Proof.
      law (fun a (b : St * X) => a = fst b); intros a [b y] i E0; cbn in E0; subst b; cbn; unfold map_each_next; ask.
    Qed.
    Theorem C99_map_each_scan {T U X} (x : X) (f : O -> T) (g : X -> T -> X * U) :
      interchangeable (Scan (MapEach p f) x g) (Scan p x (fun st y => g st (f y))).
    Proof.
      law (@eq (St * X)); intros [a y] b i <-; cbn; unfold map_each_next; ask; destruct (g y _); cbn; auto.
    Qed.
    Theorem C99_scan_map_each {T U X} (x : X) (f : X -> O -> X * T) (g : T -> U) :
      interchangeable (MapEach (Scan p x f) g) (Scan p x (fun st y => let '(st', z) := f st y in (st', g z))).
    Proof.
      law (@eq (St * X)); intros [a y] b i <-; cbn; unfold map_each_next; cbn; ask; destruct (f y _); cbn; auto.
    Qed.
    Theorem C99_scan_scan {T U X Y} (x : X) (y : Y) (f : X -> O -> X * T) (g : Y -> T -> Y * U) :
      interchangeable (Scan (Scan p x f) y g)
        (Scan p (x, y) (fun st o => let '(x', z) := f (fst st) o in let '(y', u) := g (snd st) z in ((x', y'), u))).
    Proof.
      law (fun (a : (St * X) * Y) (b : St * (X * Y)) => fst (fst a) = fst b /\ snd (fst a) = fst (snd b) /\ snd a = snd (snd b));
        intros [[a x1] y1] [b [x2 y2]] i (E1 & E2 & E3); cbn in E1, E2, E3; subst b x2 y2; cbn; ask;
        destruct (f x1 _) as [x' z]; cbn; destruct (g y1 z); cbn; auto.
    Qed.

    Theorem C99_take_take m n : interchangeable (Take (Take p m) n) (Take p (Nat.min m n)).
    Proof.
      law (fun (a : (St * nat) * nat) (b : St * nat) => fst (fst a) = fst b /\ Nat.min (snd (fst a)) (snd a) = snd b);
        intros [[a x] y] [b z] i (E1 & E2); cbn in E1, E2; subst b; unfold Take; cbn [parse_iterative parse_iterative_once it_next take_next];
        destruct (Nat.eqb_spec y 0); destruct (Nat.eqb_spec x 0); destruct (Nat.eqb_spec z 0); try lia; cbn [bind];
        try (cbn; split; auto; fail);
        ask; (split; auto; intros _; split; auto; lia).
    Qed.
    Theorem C99_take_map_each {T} (f : O -> T) n : interchangeable (MapEach (Take p n) f) (Take (MapEach p f) n).
    Proof.
      law (@eq (St * nat)); intros [a y] b i <-; cbn; unfold map_each_next; cbn; (destruct (y =? 0); [cbn; auto|]); cbn;
        unfold map_each_next; ask.
    Qed.
    Theorem C99_take_scan {T X} (x : X) (f : X -> O -> X * T) n : interchangeable (Scan (Take p n) x f) (Take (Scan p x f) n).
    Proof.
      law (fun (a : (St * nat) * X) (b : (St * X) * nat) => fst (fst a) = fst (fst b) /\ snd (fst a) = snd b /\ snd a = snd (fst b));
        intros [[a k] y] [[b y2] k2] i (E1 & E2 & E3); cbn in E1, E2, E3; subst b y2 k2; cbn; (destruct (k =? 0); [cbn; auto|]);
        ask; destruct (f y _); cbn; auto.
    Qed.

    (** ** Only for those who stop at the end *)

    Theorem C99_take_map_while {T} (f : O -> option T) n : same_to_the_end (MapWhile (Take p n) f) (Take (MapWhile p f) n).
    Proof.
      law (@eq (St * nat)); intros [a y] b i <-; cbn; unfold map_while_next; cbn; (destruct (y =? 0); [cbn; auto|]); cbn;
        unfold map_while_next; ask; destruct (f _); cbn; auto; split; auto; discriminate.
    Qed.
    Theorem C99_take_try_map_each {T E'} {PE : ParseError E'} (from : E -> E') (f : O -> result T E') n :
      same_to_the_end (TryMapEach from (Take p n) f) (Take (TryMapEach from p f) n).
    Proof.
      law (@eq (St * nat)); intros [a y] b i <-; cbn; unfold try_map_each_next; cbn; (destruct (y =? 0); [cbn; auto|]); cbn;
        unfold try_map_each_next; ask; try (destruct (f _); cbn; auto; destruct (should_terminate e); cbn);
        (split; auto; discriminate).
    Qed.

    (** ** Stages absorbed by a consumer *)

    Theorem C99_fold_map_each {T Acc} fuel (acc : Acc) (f : O -> T) (g : Acc -> T -> Acc) s :
      parse (Fold fuel (MapEach p f) acc g) s = parse (Fold fuel p acc (fun x o => g x (f o))) s /\
      parse_once (Fold fuel (MapEach p f) acc g) s = parse_once (Fold fuel p acc (fun x o => g x (f o))) s.
    Proof.
      cbn. split; apply fold_map_each.
    Qed.
    (** [fold] over [scan] is one [fold] with both states. *)
    Theorem C99_fold_scan {T X Acc} fuel (acc : Acc) (x : X) (f : X -> O -> X * T) (g : Acc -> T -> Acc) s :
      let both := fun (st : X * Acc) o => let '(x', z) := f (fst st) o in (x', g (snd st) z) in
      parse (Fold fuel (Scan p x f) acc g) s = parse (Map (Fold fuel p (x, acc) both) snd) s /\
      parse_once (Fold fuel (Scan p x f) acc g) s = parse_once (Map (Fold fuel p (x, acc) both) snd) s.
    Proof.
      intros both. cbn. unfold map_parse, map_parse_once. cbn.
      split; rewrite fold_scan; fold both; destruct (fold_loop _ _ _ _ _ _) as [[]| | |]; reflexivity.
    Qed.
    (** Mapping what is collected. *)
    Theorem C99_collect_map_each {T C C'} fuel (c : C) (c' : C') ext ext' (f : O -> T) (h : C -> C') s :
      h c = c' -> (forall y o, h (ext y o) = ext' (h y) (f o)) ->
      parse (Collect c' ext' fuel (MapEach p f)) s = parse (Map (Collect c ext fuel p) (fun r => (h (fst r), snd r))) s /\
      parse_once (Collect c' ext' fuel (MapEach p f)) s = parse_once (Map (Collect c ext fuel p) (fun r => (h (fst r), snd r))) s.
    Proof.
      intros <- HX. cbn. unfold map_parse, map_parse_once. cbn.
      split; rewrite (collect_map_each _ _ _ _ _ _ _ HX); destruct (collect_loop _ _ _ _ _ _) as [[]| | |]; reflexivity.
    Qed.
  End Fuse.

  (** ** Parsers turned into iterative ones *)
  Section Lift.
    Context {O E : Type} {PE : ParseError E} (p : dparser S O E).

    Theorem C99_map_repeat {T} (f : O -> T) : interchangeable (RepeatIter (Map p f)) (MapEach (RepeatIter p) f).
    Proof.
      law (@eq unit); intros a b i <-; cbn; unfold map_each_next; cbn; unfold repeat_next; cbn; unfold ref_parse; cbn; unfold map_parse, map_parse_once.
      - destruct (parse p i) as [[]| | |]; cbn; auto. destruct (should_terminate _); cbn; auto. destruct (rewind _ _); cbn; auto.
      - destruct (parse p i) as [[]| | |]; cbn; auto. destruct (should_terminate _); cbn; auto. destruct (rewind _ _); cbn; auto.
    Qed.
    Theorem C99_map_optional {T} (f : O -> T) : interchangeable (OptionalIter (Map p f)) (MapEach (OptionalIter p) f).
    Proof.
      law (@eq bool); intros a b i <-; cbn; unfold map_each_next; cbn; unfold optional_next, optional_next_once; destruct a; cbn; auto;
        unfold map_parse, map_parse_once.
      - destruct (parse p i) as [[]| | |]; cbn; auto. destruct (should_terminate _); cbn; auto. destruct (rewind _ _); cbn; auto.
      - destruct (parse_once p i) as [[]| | |]; cbn; auto. destruct (should_terminate _); cbn; auto. destruct (rewind _ _); cbn; auto.
    Qed.
    (** One of a repetition is an option, until the end.  (Consumed, [repeat]
        still borrows its parser while [optional] consumes it.) *)
    Theorem C99_take_one : (forall s, parse_once p s = parse p s) ->
      same_to_the_end (Take (RepeatIter p) 1) (OptionalIter p).
    Proof.
      intros HP. split; (apply bisim with (R := fun a b => snd a = if b : bool then 1 else 0); [|reflexivity]);
        intros [[] k] b i E0; cbn in E0; subst k; destruct b; cbn; auto; unfold repeat_next, optional_next, optional_next_once; cbn;
        unfold ref_parse; rewrite ?HP;
        (destruct (parse p i) as [[]| | |]; cbn; auto; destruct (should_terminate _); cbn; [split; auto; discriminate|];
         destruct (rewind _ _); cbn; auto; split; auto; discriminate).
    Qed.
  End Lift.
End Laws.

(** ** What does not hold *)

(** Someone who asks again after the end can tell [take] before [map_while]
    from [take] after it: the item refused has been counted. *)
#[local] Instance miss_error {X} : ParseError (Miss X) := fun _ => false.
Definition numbers : diter unit (slice nat) nat (Miss unit) := RepeatIter any_item.
Definition small (n : nat) : option nat := if n <=? 5 then Some n else None.
Theorem C99_take_map_while_not_past_the_end :
  ~ interchangeable (MapWhile (Take numbers 1) small) (Take (MapWhile numbers small) 1).
Proof.
  intros (H & _). specialize (H [Slice 0 0 [9; 2]; Slice 0 1 [2]]). vm_compute in H. discriminate.
Qed.
(** A repetition that has ended may go on; an option may not. *)
Theorem C99_take_one_not_past_the_end :
  ~ interchangeable (Take numbers 1) (OptionalIter any_item).
Proof.
  intros (H & _). specialize (H [Slice 0 0 []; Slice 0 0 [4]]). vm_compute in H. discriminate.
Qed.

(** ** Cases *)

(** A pipeline in stages and in one stage: double, stop above 10, at most
    three, running sums. *)
Definition in_stages := Scan (Take (MapWhile (MapEach numbers (fun n => 2 * n)) (fun n => if n <=? 10 then Some n else None)) 3)
  0 (fun st n => (st + n, st + n)).
Definition fused := Take (Scan (MapWhile numbers (fun n => if 2 * n <=? 10 then Some (2 * n) else None))
  0 (fun st n => (st + n, st + n))) 3.
Example C99_case_fused : interchangeable in_stages fused.
Proof.
  assert (T : forall St1 St2 St3 S O E (p : diter St1 S O E) (q : diter St2 S O E) (r : diter St3 S O E),
    interchangeable p q -> interchangeable q r -> interchangeable p r).
  { intros * (A1 & A2) (B1 & B2). split; intros inputs; [rewrite A1|rewrite A2]; auto. }
  unfold in_stages, fused. eapply T; [apply C99_take_scan|].
  destruct (C99_inside true _ _ (C99_map_each_map_while numbers (fun n => 2 * n) (fun n => if n <=? 10 then Some n else None)))
    as (_ & _ & _ & H & _).
  destruct (C99_inside true _ _ (H _ _ 0 (fun st n => (st + n, st + n)))) as (_ & _ & _ & _ & K & _). apply K.
Qed.
Example C99_case_runs :
  parse (Collect [] (fun c x => c ++ [x]) 9 in_stages) (Slice 3 4 [1; 5; 2; 4]) = Ret (Ok ([2; 12; 16], None) (Slice 3 7 [4])) /\
  parse (Collect [] (fun c x => c ++ [x]) 9 fused) (Slice 3 4 [1; 5; 2; 4]) = Ret (Ok ([2; 12; 16], None) (Slice 3 7 [4])) /\
  parse (Collect [] (fun c x => c ++ [x]) 9 fused) (Slice 3 4 [1; 6; 2; 4]) = Ret (Ok ([2], None) (Slice 3 5 [6; 2; 4])).
Proof. split; [|split]; vm_compute; reflexivity. Qed.
Example C99_case_fold s :
  parse (Fold 9 (MapWhile (Take numbers 2) small) 0 Nat.add) s = parse (Fold 9 (Take (MapWhile numbers small) 2) 0 Nat.add) s.
Proof. apply C99_fold, C99_take_map_while. Qed.
Example C99_case_collect s :
  parse (Collect [] (fun c x => c ++ [x]) 9 (MapEach numbers (Nat.mul 3))) s =
  parse (Map (Collect [] (fun c x => c ++ [x]) 9 numbers) (fun r => (map (Nat.mul 3) (fst r), snd r))) s.
Proof. apply C99_collect_map_each; auto. intros. now rewrite map_app. Qed.

Print Assumptions C99_interchangeable_is_same.
Print Assumptions C99_inside.
Print Assumptions C99_fold.
Print Assumptions C99_collect.
Print Assumptions C99_map_each_id.
Print Assumptions C99_map_each_map_each.
Print Assumptions C99_map_each_map_while.
Print Assumptions C99_map_while_map_each.
Print Assumptions C99_map_while_map_while.
Print Assumptions C99_map_each_is_map_while.
Print Assumptions C99_map_while_is_try_map_each.
Print Assumptions C99_map_each_try_map_each.
Print Assumptions C99_map_each_is_scan.
Print Assumptions C99_map_each_scan.
Print Assumptions C99_scan_map_each.
Print Assumptions C99_scan_scan.
Print Assumptions C99_take_take.
Print Assumptions C99_take_map_each.
Print Assumptions C99_take_scan.
Print Assumptions C99_take_map_while.
Print Assumptions C99_take_try_map_each.
Print Assumptions C99_fold_map_each.
Print Assumptions C99_fold_scan.
Print Assumptions C99_collect_map_each.
Print Assumptions C99_map_repeat.
Print Assumptions C99_map_optional.
Print Assumptions C99_take_one.
Print Assumptions C99_take_map_while_not_past_the_end.
Print Assumptions C99_take_one_not_past_the_end.
