(** * L_Pipe: bisimulations of iterative parsers. *)
From Verif Require Export S_Pipe.

(** One answer of two sessions in related states. *)
Definition step_ok {St1 St2 S O E} (past : bool) (R : St1 -> St2 -> Prop)
    (c1 : comp (St1 * res S (option O) E)) (c2 : comp (St2 * res S (option O) E)) : Prop :=
  match c1, c2 with
  | Ret (a, x), Ret (b, y) => x = y /\ (goes_on past x = true -> R a b)
  | Panic, Panic | UB, UB | OutOfFuel, OutOfFuel => True
  | _, _ => False
  end.

Lemma bisim {St1 St2 S O E} (past : bool) (p : M_Iter.iter St1 S O E) (q : M_Iter.iter St2 S O E) (R : St1 -> St2 -> Prop) :
  (forall a b i, R a b -> step_ok past R (it_next p a i) (it_next q b i)) ->
  R (it_init p) (it_init q) -> same_answers past p q.
Proof.
  intros H H0 inputs. revert H0. generalize (it_init p), (it_init q).
  induction inputs as [|i rest IH]; intros a b HR; cbn; auto. specialize (H a b i HR).
  destruct (it_next p a i) as [[a' x]| | |], (it_next q b i) as [[b' y]| | |]; cbn in H; try contradiction; auto.
  destruct H as (<- & H). f_equal. destruct (goes_on past x); auto.
Qed.

Definition alike_from {St1 St2 S O E} (past : bool) (p : M_Iter.iter St1 S O E) (q : M_Iter.iter St2 S O E) (a : St1) (b : St2) : Prop :=
  forall inputs, answers past p a inputs = answers past q b inputs.
Lemma alike_step {St1 St2 S O E} past (p : M_Iter.iter St1 S O E) (q : M_Iter.iter St2 S O E) a b i :
  alike_from past p q a b -> step_ok past (alike_from past p q) (it_next p a i) (it_next q b i).
Proof.
  intros H. pose proof (H [i]) as H1. cbn in H1. pose proof (fun rest => H (i :: rest)) as H2. cbn in H2. clear H.
  destruct (it_next p a i) as [[a' x]| | |], (it_next q b i) as [[b' y]| | |]; cbn; auto; try discriminate H1.
  injection H1 as ->. split; auto. intros G inputs. specialize (H2 inputs). rewrite G in H2. now injection H2.
Qed.

Lemma past_end {St1 St2 S O E} (p : M_Iter.iter St1 S O E) (q : M_Iter.iter St2 S O E) :
  same_answers true p q -> same_answers false p q.
Proof.
  intros H. apply bisim with (R := alike_from true p q); [|exact H].
  intros a b i HR. pose proof (alike_step true p q a b i HR) as K.
  destruct (it_next p a i) as [[a' [[x|] r|x r]]| | |], (it_next q b i) as [[b' y]| | |]; cbn in *; intuition.
Qed.

Section Inside.
  Context {S A : Type} {RW : RewindSequence S A} {St1 St2 O E : Type} (past : bool).
  Context (p : M_Iter.iter St1 S O E) (q : M_Iter.iter St2 S O E).
  Hypothesis H : same_answers past p q.

  Ltac go K := destruct (it_next p _ _) as [[? [[?|] ?|? ?]]| | |], (it_next q _ _) as [[? ?]| | |]; cbn in K |- *; try contradiction;
    auto; destruct K as (<- & K); cbn.

  Lemma in_map_each {T} (f : O -> T) : same_answers past (IT (it_init p) (map_each_next p f)) (IT (it_init q) (map_each_next q f)).
  Proof.
    apply bisim with (R := alike_from past p q); [|exact H]. intros a b i HR. cbn. unfold map_each_next.
    pose proof (alike_step past p q a b i HR) as K. go K; auto.
  Qed.
  Lemma in_map_while {T} (f : O -> option T) : same_answers past (IT (it_init p) (map_while_next p f)) (IT (it_init q) (map_while_next q f)).
  Proof.
    apply bisim with (R := alike_from past p q); [|exact H]. intros a b i HR. cbn. unfold map_while_next.
    pose proof (alike_step past p q a b i HR) as K. go K; auto.
  Qed.
  Lemma in_try_map_each {T E'} {PE : ParseError E'} (from : E -> E') (f : O -> result T E') :
    same_answers past (IT (it_init p) (try_map_each_next from p f)) (IT (it_init q) (try_map_each_next from q f)).
  Proof.
    apply bisim with (R := alike_from past p q); [|exact H]. intros a b i HR. cbn. unfold try_map_each_next.
    pose proof (alike_step past p q a b i HR) as K. go K; auto.
    destruct (f _); cbn; auto. destruct (should_terminate e); cbn; auto.
  Qed.
  Lemma in_scan {T X} (x : X) (f : X -> O -> X * T) :
    same_answers past (IT (it_init p, x) (scan_next p f)) (IT (it_init q, x) (scan_next q f)).
  Proof.
    apply bisim with (R := fun a b => alike_from past p q (fst a) (fst b) /\ snd a = snd b); [|now split].
    intros [a y] [b y'] i (HR & Y). cbn in HR, Y. subst y'. cbn.
    pose proof (alike_step past p q a b i HR) as K. go K; auto. destruct (f y _). cbn. auto.
  Qed.
  Lemma in_take (n : nat) : same_answers past (IT (it_init p, n) (take_next p)) (IT (it_init q, n) (take_next q)).
  Proof.
    apply bisim with (R := fun a b => alike_from past p q (fst a) (fst b) /\ snd a = snd b); [|now split].
    intros [a y] [b y'] i (HR & Y). cbn in HR, Y. subst y'. cbn.
    destruct (y =? 0); [cbn; auto|]. pose proof (alike_step past p q a b i HR) as K. go K; auto.
  Qed.
End Inside.

Section Consumers.
  Context {S A : Type} {RW : RewindSequence S A} {St1 St2 O E : Type}.
  Context (p : M_Iter.iter St1 S O E) (q : M_Iter.iter St2 S O E).

  Lemma in_fold {Acc} (f : Acc -> O -> Acc) fuel : forall a b acc s, alike_from false p q a b ->
    fold_loop fuel p f a acc s = fold_loop fuel q f b acc s.
  Proof.
    induction fuel as [|fuel IH]; intros a b acc s HR; cbn; auto.
    pose proof (alike_step false p q a b s HR) as K.
    destruct (it_next p _ _) as [[? [[?|] ?|? ?]]| | |], (it_next q _ _) as [[? ?]| | |]; cbn in K |- *; try contradiction; auto;
      destruct K as (<- & K); auto.
  Qed.
  Lemma in_collect {C} (ext : C -> O -> C) fuel : forall a b c s, alike_from false p q a b ->
    collect_loop ext fuel p a c s = collect_loop ext fuel q b c s.
  Proof.
    induction fuel as [|fuel IH]; intros a b acc s HR; cbn; auto.
    pose proof (alike_step false p q a b s HR) as K.
    destruct (it_next p _ _) as [[? [[?|] ?|? ?]]| | |], (it_next q _ _) as [[? ?]| | |]; cbn in K |- *; try contradiction; auto;
      destruct K as (<- & K); auto.
  Qed.
End Consumers.

(** Stages absorbed by a consumer. *)
Section Absorb.
  Context {S A : Type} {RW : RewindSequence S A} {St O E : Type} (p : M_Iter.iter St S O E) (i0 : St).
  Ltac ask := destruct (it_next _ _ _) as [[? [[?|] ?|? ?]]| | |]; cbn; auto.

  Lemma fold_map_each {T Acc} (f : O -> T) (g : Acc -> T -> Acc) fuel : forall acc s st,
    fold_loop fuel (IT i0 (map_each_next p f)) g st acc s = fold_loop fuel p (fun x o => g x (f o)) st acc s.
  Proof. induction fuel as [|fuel IH]; intros acc s st; cbn; auto. unfold map_each_next at 1. ask. Qed.
  Lemma fold_scan {T X Acc} (x0 : X) (f : X -> O -> X * T) (g : Acc -> T -> Acc) fuel : forall acc s x st,
    fold_loop fuel (IT (i0, x0) (scan_next p f)) g (st, x) acc s =
    match fold_loop fuel p (fun st o => let '(x', z) := f (fst st) o in (x', g (snd st) z)) st (x, acc) s with
    | Ret (Ok v r) => Ret (Ok (snd v) r)
    | Ret (Err e r) => Ret (Err e r)
    | Panic => Panic | UB => UB | OutOfFuel => OutOfFuel
    end.
  Proof. induction fuel as [|fuel IH]; intros acc s x st; cbn; auto. ask. destruct (f x _). cbn. apply IH. Qed.
  Lemma collect_map_each {T C C'} ext ext' (f : O -> T) (h : C -> C') fuel :
    (forall y o, h (ext y o) = ext' (h y) (f o)) -> forall c s st,
    collect_loop ext' fuel (IT i0 (map_each_next p f)) st (h c) s =
    match collect_loop ext fuel p st c s with
    | Ret (Ok v r) => Ret (Ok (h (fst v), snd v) r)
    | Ret (Err e r) => Ret (Err e r)
    | Panic => Panic | UB => UB | OutOfFuel => OutOfFuel
    end.
  Proof.
    intros HX. induction fuel as [|fuel IH]; intros c s st; cbn; auto. unfold map_each_next at 1. ask.
    - rewrite <- HX. apply IH.
    - destruct (rewind _ _); cbn; auto.
    - destruct (rewind _ _); cbn; auto.
  Qed.
End Absorb.
