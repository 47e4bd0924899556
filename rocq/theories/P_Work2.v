(** * P_Work2: the work done by the grammar of example/src/cache.rs, property C88. *)
From Verif Require Import L_Base L_Example L_Work2 L_Cache P_Calls P_Cache.
Import M_Cache L_Cache S_Work2.

Section Properties.
  Context {S A : Type} {SQ : Sequence S str} {RS : RewindSequence S A} {reach : S -> S -> Prop}.
  Context (LP : lawful_positions reach).
  Context (usize_max : nat) (overflow_checks : bool) (budget depth : nat) (big : 1 < usize_max).
  Notation expr := (expr_parse usize_max overflow_checks budget depth).

  (** C88: on a text that carries the list of moves made, the parser does what
      it does without, and makes at most three moves per character and two more. *)
  Theorem C88_linear (s : S) h : length (text s) < budget ->
    match expr s with
    | Ret r => exists ms, expr (s, h) = Ret (logged (h ++ ms) r) /\ length ms <= 3 * length (text s) + 2
    | Panic => expr (s, h) = Panic
    | UB => expr (s, h) = UB
    | OutOfFuel => expr (s, h) = OutOfFuel
    end.
  Proof.
    intros L. pose proof (expr_tells LP usize_max overflow_checks budget depth s h) as T.
    destruct (expr s) as [r| | |] eqn:P; [|exact T..]. destruct T as (ms & W & Q). exists ms. split; [exact Q|].
    pose proof (expr_cost LP usize_max overflow_checks budget big depth s ms r L W P) as B.
    destruct r as [e r|e l]; [|lia]. destruct (no_space_dec (text r)) as [N|N]; [apply B in N|apply B in N]; lia.
  Qed.

  (** An expression that no space follows takes one move per character, two
      more per operator, three more per pair of parentheses, and two at the end. *)
  Theorem C88_exact (s : S) h e cs rest : length (text s) < budget -> length (text s) < depth ->
    text s = cs ++ rest -> writes e cs -> closed rest ->
    exists r ms, expr (s, h) = Ret (Ok e (r, h ++ ms)) /\ text r = rest /\
      length ms = length cs + 2 * operators e + 3 * parentheses e + 2.
  Proof.
    intros L D T W C.
    destruct (C77_round_trip LP usize_max overflow_checks budget depth big s e cs rest (conj L D) T W C) as (r & P & Tr & _).
    pose proof (expr_tells LP usize_max overflow_checks budget depth s h) as Q. rewrite P in Q. destruct Q as (ms & WM & Q).
    exists r, ms. split; [exact Q|]. split; [exact Tr|].
    assert (no_space (text r)) as N.
    { rewrite Tr. intros y E. rewrite E in C. now apply C. }
    pose proof (expr_costs_all LP usize_max overflow_checks budget big depth s ms e r L WM P N) as B.
    rewrite T, app_length, Tr in B. unfold extra in B. unfold char in *. lia.
  Qed.

  (** The inputs of the example take five moves per level. *)
  Theorem C88_nested (s : S) h n : 2 * n + 1 < budget -> 2 * n + 1 < depth -> text s = nested_text n ->
    exists r ms, expr (s, h) = Ret (Ok (nested n) (r, h ++ ms)) /\ text r = [] /\ length ms = 5 * n + 3.
  Proof.
    intros L1 L2 T. assert (length (nested_text n) = 2 * n + 1) as L.
    { unfold nested_text. rewrite !app_length, !repeat_length. cbn. lia. }
    destruct (C88_exact s h (nested n) (nested_text n) []) as (r & ms & P & Tr & B).
    - rewrite T. unfold char in *. lia.
    - rewrite T. unfold char in *. lia.
    - now rewrite app_nil_r.
    - apply nested_writes.
    - exact I.
    - exists r, ms. split; [exact P|]. split; [exact Tr|]. rewrite B, L.
      assert (operators (nested n) = 0) as -> by (clear; induction n as [|n IH]; [reflexivity|exact IH]).
      assert (parentheses (nested n) = n) as ->; [|lia]. clear. induction n as [|n IH]; [reflexivity|]. cbn in *. now rewrite IH.
  Qed.
End Properties.

(** ** Cases *)
(** Moves made on a text, if there is an answer. *)
Definition moves_on (cs : list char) : option nat :=
  match expr_parse 100 true 50 50 (StrRef 0 0 (Str cs), @nil move) with
  | Ret (Ok _ (_, ms)) | Ret (Err _ (_, ms)) => Some (length ms)
  | _ => None
  end.
Example C88_nested_case : map (fun n => moves_on (nested_text n)) [0; 1; 2; 3; 10] = [Some 3; Some 8; Some 13; Some 18; Some 53].
Proof. vm_compute. reflexivity. Qed.
(** [0 + (0  * 0) - 0], and [((((0 + 0 ] in vain. *)
Example C88_exact_case : moves_on [48; 32; 43; 32; 40; 48; 32; 32; 42; 32; 48; 41; 32; 45; 32; 48]%N = Some (16 + 2 * 3 + 3 * 1 + 2).
Proof. vm_compute. reflexivity. Qed.
Example C88_vain_case : moves_on [40; 40; 40; 40; 48; 32; 43; 32; 48; 32]%N = Some 18.
Proof. vm_compute. reflexivity. Qed.

Print Assumptions C88_linear.
Print Assumptions C88_exact.
Print Assumptions C88_nested.
