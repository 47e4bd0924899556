(** * P_Work: the work done by the expression grammar, property C87. *)
From Verif Require Import L_Base L_Example L_Example2 L_Example3 L_Work P_Calls P_Example.

Section Properties.
  Context {S A : Type} {SQ : Sequence S str} {RS : RewindSequence S A} {reach : S -> S -> Prop}.
  Context (LP : lawful_positions reach).
  Context (usize_max : nat) (overflow_checks : bool) (budget depth : nat) (big : 2 < usize_max).
  Notation expr := (expr_parse usize_max overflow_checks budget depth).

  (** C87: on a text that carries the list of moves made, the parser does what
      it does without, and makes at most three moves per character and two
      more, however the expression is nested and however it fails. *)
  Theorem C87_linear (s : S) h : length (text s) < budget ->
    match expr s with
    | Ret r => exists ms, expr (s, h) = Ret (logged (h ++ ms) r) /\ length ms <= 3 * length (text s) + 2
    | Panic => expr (s, h) = Panic
    | UB => expr (s, h) = UB
    | OutOfFuel => expr (s, h) = OutOfFuel
    end.
  Proof.
    intros L. pose proof (expr_tells LP usize_max overflow_checks budget depth s h) as T.
    destruct (expr s) as [r| | |] eqn:P; [|exact T..]. destruct T as (ms & W & Q). exists ms. split; [exact Q|].
    pose proof (expr_cost LP usize_max overflow_checks budget big depth s ms r L W P) as B.
    destruct r as [e r|e l]; [|lia]. destruct (no_space_dec (text r)) as [N|N]; [apply B in N|apply B in N]; lia.
  Qed.

  (** If no space follows the expression, the text behind it does not matter. *)
  Theorem C87_local (s : S) h e r : length (text s) < budget -> expr s = Ret (Ok e r) -> (forall rest, text r <> 32%N :: rest) ->
    exists cs ms, text s = cs ++ text r /\ expr (s, h) = Ret (Ok e (r, h ++ ms)) /\ length ms <= 3 * length cs + 2.
  Proof.
    intros L P N. pose proof (expr_tells LP usize_max overflow_checks budget depth s h) as T. rewrite P in T.
    destruct T as (ms & W & Q). destruct (expr_sound LP usize_max overflow_checks budget big depth s e r L P) as (cs & E & _).
    exists cs, ms. split; [exact E|]. split; [exact Q|].
    destruct (expr_cost LP usize_max overflow_checks budget big depth s ms _ L W P) as [B _]. specialize (B N).
    rewrite E, app_length in B. lia.
  Qed.

  (** An expression that no space follows takes one move per number and per
      character outside numbers, two more per operator, three more per pair of
      parentheses, and two at the end. *)
  Theorem C87_exact (s : S) h e cs rest : (forall s : S, no_gaps s) -> length (text s) < budget -> length (text s) < depth ->
    text s = cs ++ rest -> writes e cs -> closed rest -> fits usize_max e ->
    exists r ms, expr (s, h) = Ret (Ok e (r, h ++ ms)) /\ text r = rest /\
      length ms + digits_in cs = length cs + numbers e + 2 * operators e + 3 * parentheses e + 2.
  Proof.
    intros NG L D T W C F.
    destruct (C62_round_trip LP usize_max overflow_checks budget depth big s e cs rest NG (conj L D) T W C F) as (r & P & Tr & _).
    pose proof (expr_tells LP usize_max overflow_checks budget depth s h) as Q. rewrite P in Q. destruct Q as (ms & WM & Q).
    exists r, ms. split; [exact Q|]. split; [exact Tr|].
    assert (no_space (text r)) as N.
    { rewrite Tr. intros y E. rewrite E in C. now apply C. }
    pose proof (expr_costs_all LP usize_max overflow_checks budget big depth s ms e r L WM P N) as B.
    rewrite T, Tr, app_length, digits_app in B. unfold extra in B. unfold char in *. lia.
  Qed.
End Properties.

(** ** Cases *)
(** Moves made on a text, if there is an answer. *)
Definition moves_on (cs : list char) : option nat :=
  match expr_parse 100 true 50 50 (StrRef 0 0 (Str cs), @nil move) with
  | Ret (Ok _ (_, ms)) | Ret (Err _ (_, ms)) => Some (length ms)
  | _ => None
  end.
Fixpoint wrapped (n : nat) (cs : list char) : list char :=
  match n with 0 => cs | S n => [40%N] ++ wrapped n cs ++ [41%N] end.
(** Nesting is not searched twice: five moves per pair of parentheses. *)
Example C87_nested_case : map (fun n => moves_on (wrapped n [55%N])) [0; 1; 2; 3; 10] = [Some 3; Some 8; Some 13; Some 18; Some 53].
Proof. vm_compute. reflexivity. Qed.
(** Neither is text that is looked at in vain, here [1 + (((((] and [((((1 + 2 ] . *)
Example C87_vain_case :
  moves_on [49; 32; 43; 32; 40; 40; 40; 40; 40]%N = Some 18 /\ moves_on [40; 40; 40; 40; 49; 32; 43; 32; 50; 32]%N = Some 18.
Proof. vm_compute. auto. Qed.

(** [12 + (3  * 45) - 7]: 12 characters outside numbers, 4 numbers, 3 operators, one pair of parentheses. *)
Example C87_exact_case :
  moves_on [49; 50; 32; 43; 32; 40; 51; 32; 32; 42; 32; 52; 53; 41; 32; 45; 32; 55]%N = Some (18 - 6 + 4 + 2 * 3 + 3 * 1 + 2).
Proof. vm_compute. reflexivity. Qed.

Print Assumptions C87_linear.
Print Assumptions C87_local.
Print Assumptions C87_exact.
