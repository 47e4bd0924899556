(** * P_ShortVec: ShortVec, properties C38-C41. *)
From Coq Require Import Permutation.
From Verif Require Import L_ShortVec.

Section Properties.
  Context {T : Type}.
  Context (N size isize_max : nat).

  (** Create a vector with capacity [c] in fresh memory (new() is [c = 0]), then
      perform the calls. *)
  Definition session (c : nat) (cs : list (call T)) : comp (list (reply T) * (ShortVec T * mem T)) :=
    ' st <- with_capacity N size isize_max mem_empty c ;; perform_all N size isize_max st cs.

  (** ** C38 *)
  (** Whatever the calls: no undefined behaviour, and unless the session panics
      the replies and contents are those of a plain stack. *)
  Theorem C38_is_a_stack c cs :
    0 < size ->
    match session c cs with
    | Ret (rs, st) => exists vs, stack_run [] cs = Some (rs, vs) /\ as_slice N (snd st) (fst st) = Ret vs
    | Panic => True
    | UB => False
    | OutOfFuel => False
    end.
  Proof.
    intros Hs. unfold session.
    destruct (with_capacity_cases N size isize_max (@mem_empty T) c eq_refl eq_refl (or_introl Hs)) as [->|[st [E1 [E2 _]]]]; [exact I|].
    rewrite E1. cbn [bind]. pose proof (run_sound N size isize_max cs [] st Hs E2) as H.
    destruct (perform_all N size isize_max st cs) as [[rs st']| | |]; auto.
    destruct H as [vs [H1 [H2 _]]]. exists vs. split; auto. now apply inv_as_slice with (size := size) (imax := isize_max).
  Qed.

  (** It only panics for capacities that cannot be had (or an index out of
      bounds): if no call asks for more than [bound] elements and twice that
      fits in memory, every call is answered. *)
  Theorem C38_no_panic c cs bound :
    0 < size -> demands_within bound [] cs ->
    Nat.max (Nat.max N c) (2 * bound) * size <= isize_max ->
    exists rs st, session c cs = Ret (rs, st).
  Proof.
    intros Hs Hd Hb. unfold session.
    destruct (with_capacity_ok N size isize_max (@mem_empty T) c eq_refl eq_refl) as [st [E1 [E2 [E3 _]]]].
    { right. split; auto. etransitivity; [|exact Hb]. apply Nat.mul_le_mono_r. lia. }
    { etransitivity; [|exact Hb]. rewrite <- (Nat.mul_1_r c) at 1. apply Nat.mul_le_mono; lia. }
    rewrite E1. cbn [bind]. destruct (run_total N size isize_max bound cs [] st E2 Hd) as [rs [st' [vs [R _]]]]; [|eauto].
    right. rewrite E3. auto.
  Qed.

  (** ** C39 *)
  (** After the session and drop: every value given to the vector was popped or
      dropped, exactly once; the allocations and the frees are the same blocks
      with the same sizes, and no block id occurs twice. *)
  Theorem C39_freed_once c cs rs st :
    0 < size -> session c cs = Ret (rs, st) ->
    exists m, drop N size isize_max (snd st) (fst st) = Ret m /\
      Permutation (given cs) (returned rs ++ dropped (log m)) /\
      Permutation (allocated (log m)) (freed (log m)) /\
      NoDup (map fst (allocated (log m))).
  Proof.
    intros Hs. unfold session.
    destruct (with_capacity_cases N size isize_max (@mem_empty T) c eq_refl eq_refl (or_introl Hs)) as [->|[st0 [E1 [E2 [E3 [E4 _]]]]]]; [discriminate|].
    rewrite E1. cbn [bind]. intros Hp. pose proof (run_sound N size isize_max cs [] st0 Hs E2) as H. rewrite Hp in H.
    destruct H as [vs [H1 [H2 [H3 H4]]]]. destruct (drop_ok N size isize_max vs st H2) as [m [D1 [D2 [D3 [D4 [D5 _]]]]]].
    exists m. split; auto. split; [|auto]. rewrite E4, !app_nil_r in H4. cbn in H4. rewrite H4, D2.
    apply Permutation_app_head. apply Permutation_app_comm.
  Qed.

  (** ** C40 *)
  (** No allocation while the inline space suffices (any element size). *)
  Theorem C40_no_allocation c cs :
    N <= isize_max -> c <= N -> demands_within N [] cs ->
    exists rs st, session c cs = Ret (rs, st) /\ allocated (log (snd st)) = [] /\ cap (fst st) = N.
  Proof.
    intros Hn Hc Hd. unfold session.
    destruct (with_capacity_ok N size isize_max (@mem_empty T) c eq_refl eq_refl) as [st [E1 [E2 [E3 [E4 E5]]]]]; [lia|lia|].
    rewrite E1. cbn [bind]. destruct (run_total N size isize_max N cs [] st E2 Hd) as [rs [st' [vs [R [_ [_ [_ [R2 _]]]]]]]].
    - left. lia.
    - exists rs, st'. split; auto. destruct R2 as [R2 R3]; [lia|]. split; [|lia].
      rewrite (E5 Hc) in R3. cbn in R3. destruct (allocated (log (snd st'))); [reflexivity|discriminate].
  Qed.

  (** In particular a vector from [new()], whatever the size of the elements, lives inline. *)
  Theorem C40_new cs : N <= isize_max -> demands_within N [] cs ->
    exists sv m rs st, new N size isize_max (@mem_empty T) = Ret (sv, m)
      /\ as_slice N m sv = Ret [] /\ cap sv = N /\ allocated (log m) = []
      /\ perform_all N size isize_max (sv, m) cs = Ret (rs, st) /\ cap (fst st) = N /\ allocated (log (snd st)) = [].
  Proof.
    intros Hn Hd.
    destruct (with_capacity_ok N size isize_max (@mem_empty T) 0 eq_refl eq_refl) as [[sv m] [E1 [E2 [E3 [E4 E5]]]]]; [lia|lia|].
    destruct (C40_no_allocation 0 cs Hn ltac:(lia) Hd) as (rs & st & R & A & C). unfold session in R. rewrite E1 in R. cbn [bind] in R.
    exists sv, m, rs, st. split; [exact E1|]. split; [now apply inv_as_slice with (size := size) (imax := isize_max) in E2|].
    cbn [fst snd] in *. split; [lia|]. split; [|auto]. rewrite (E5 ltac:(lia)). reflexivity.
  Qed.

  (** The capacity is at least [N] and never shrinks. *)
  Theorem C40_capacity c cs rs st cs' rs' st' :
    0 < size -> session c cs = Ret (rs, st) -> perform_all N size isize_max st cs' = Ret (rs', st') ->
    N <= cap (fst st) /\ cap (fst st) <= cap (fst st').
  Proof.
    intros Hs. unfold session.
    destruct (with_capacity_cases N size isize_max (@mem_empty T) c eq_refl eq_refl (or_introl Hs)) as [->|[st0 [E1 [E2 _]]]]; [discriminate|].
    rewrite E1. cbn [bind]. intros Hp Hp'. pose proof (run_sound N size isize_max cs [] st0 Hs E2) as H. rewrite Hp in H.
    destruct H as [vs [H1 [H2 [H3 H4]]]]. pose proof (run_sound N size isize_max cs' vs st Hs H2) as K. rewrite Hp' in K.
    destruct K as [vs' [_ [_ [K _]]]]. split; auto. apply H2.
  Qed.

  (** At most logarithmically many allocations, unless exact capacities are
      requested. *)
  Theorem C40_logarithmic cs bound rs st :
    0 < size -> demands_within bound [] cs -> Forall (fun c => match c with CReserveExact _ => False | _ => True end) cs ->
    session 0 cs = Ret (rs, st) ->
    let k := length (allocated (log (snd st))) in
    k <= 2 + Nat.log2 bound /\ (1 <= k -> N * 2 ^ (k - 1) < bound).
  Proof.
    intros Hs Hd Hx. unfold session.
    destruct (with_capacity_cases N size isize_max (@mem_empty T) 0 eq_refl eq_refl (or_introl Hs)) as [->|[st0 [E1 [E2 [E3 [E4 E5]]]]]]; [discriminate|].
    rewrite E1. cbn [bind]. intros Hp.
    destruct (run_allocs N size isize_max bound cs [] st0 rs st E2 Hd Hx Hs Hp) as [_ H].
    rewrite (E5 ltac:(lia)) in H. cbn in H. rewrite Nat.sub_0_r, E3, Nat.max_0_r in H. cbn zeta.
    set (k := length (allocated (log (snd st)))) in *. split.
    - destruct (Nat.leb_spec k 1); [lia|]. destruct H as [last [L1 [L2 L3]]]; [lia|].
      assert (k - 2 <= Nat.log2 bound); [|lia]. apply Nat.log2_le_pow2; [lia|]. specialize (L3 ltac:(lia)). lia.
    - intros Hk. destruct (H Hk) as [last [L1 [L2 _]]]. lia.
  Qed.

  (** ** C41 *)
  (** Zero-sized (or any) elements are fine while they fit inline ... *)
  Theorem C41_any_size_inline_partial c cs :
    N <= isize_max -> c <= N -> demands_within N [] cs ->
    exists rs st vs, session c cs = Ret (rs, st) /\ stack_run [] cs = Some (rs, vs) /\
      as_slice N (snd st) (fst st) = Ret vs.
  Proof.
    intros Hn Hc Hd. unfold session.
    destruct (with_capacity_ok N size isize_max (@mem_empty T) c eq_refl eq_refl) as [st [E1 [E2 [E3 [E4 E5]]]]]; [lia|lia|].
    rewrite E1. cbn [bind]. destruct (run_total N size isize_max N cs [] st E2 Hd) as [rs [st' [vs [R [R1 [R2 _]]]]]].
    - left. lia.
    - exists rs, st', vs. split; [auto|]. split; [auto|]. now apply inv_as_slice with (size := size) (imax := isize_max).
  Qed.
End Properties.

Lemma pushes_within {T} (l : list T) : forall vs bound, length vs + length l <= bound ->
  demands_within bound vs (map CPush l).
Proof.
  induction l as [|x l IH]; intros vs bound H; cbn in *; auto. split; [lia|].
  apply IH. rewrite app_length. cbn. lia.
Qed.

Lemma perform_all_snoc {T} N size imax (cs : list (call T)) c : forall st rs st1,
  perform_all N size imax st cs = Ret (rs, st1) ->
  perform_all N size imax st (cs ++ [c])
  = (' r <- perform N size imax st1 c ;; Ret (rs ++ [fst r], snd r)).
Proof.
  induction cs as [|d cs IH]; intros st rs st1 H; cbn in *.
  - injection H as <- <-. destruct (perform N size imax st c) as [[? ?]| | |]; reflexivity.
  - destruct (perform N size imax st d) as [[r st']| | |]; cbn in *; try discriminate.
    destruct (perform_all N size imax st' cs) as [[rs' st2]| | |] eqn:E; cbn in *; try discriminate.
    injection H as <- <-. rewrite (IH _ _ _ E). destruct (perform N size imax st2 c) as [[? ?]| | |]; reflexivity.
Qed.

(** ... but for every inline size, pushing one more than [N] zero-sized values
    is undefined behaviour. *)
Theorem C41_zero_sized_refuted (N isize_max : nat) :
  Nat.max (N * 2) (N + 1) <= isize_max ->
  session N 0 isize_max 0 (map CPush (repeat tt (N + 1))) = UB.
Proof.
  intros Hm. unfold session.
  destruct (with_capacity_ok N 0 isize_max (@mem_empty unit) 0 eq_refl eq_refl) as [st [E1 [E2 [E3 [E4 E5]]]]]; [lia|lia|].
  rewrite E1. cbn [bind]. rewrite Nat.add_1_r, <- Nat.add_1_r, repeat_app, map_app.
  destruct (run_total N 0 isize_max N (map CPush (repeat tt N)) [] st E2) as [rs [st' [vs [R [R1 [R2 [R3 [R4 _]]]]]]]].
  - apply pushes_within. cbn. rewrite repeat_length. lia.
  - left. lia.
  - change (map CPush (repeat tt 1)) with [CPush tt].
    rewrite (perform_all_snoc _ _ _ _ _ _ _ _ R). destruct st' as [sv m]. unfold perform.
    assert (stack_run [] (map CPush (repeat tt N)) = Some (repeat RUnit N, repeat tt N)) as S1.
    { clear. assert (forall vs, stack_run vs (map CPush (repeat tt N)) = Some (repeat RUnit N, vs ++ repeat tt N)) as H; [|apply (H [])].
      induction N as [|n IH]; intros vs; cbn; [now rewrite app_nil_r|]. rewrite IH, <- app_assoc. reflexivity. }
    rewrite S1 in R1. injection R1 as _ <-. destruct R4 as [R4 _]; [lia|].
    pose proof (zst_spills N isize_max (repeat tt N) (sv, m) tt R2) as Hz. rewrite repeat_length in Hz.
    cbn [fst snd] in *. rewrite R4, E3 in Hz.
    rewrite Hz; [reflexivity|lia|lia].
Qed.

(** Exact: on zero-sized elements a session, each of whose calls stands for a stack and asks for a capacity that
    could be had, is undefined behaviour iff it ever asks for more than the inline space. *)
Theorem C41_zero_sized_exact {T} (N isize_max c : nat) (cs : list (call T)) :
  2 * N <= isize_max -> c <= isize_max -> demands_within isize_max [] cs ->
  (session N 0 isize_max c cs = UB <-> N < c \/ ~ demands_within N [] cs).
Proof.
  intros L C D. unfold session. destruct (le_lt_dec c N) as [G|G].
  - destruct (with_capacity_ok N 0 isize_max (@mem_empty T) c eq_refl eq_refl) as [st [E1 [E2 _]]]; [lia|lia|].
    rewrite E1. cbn [bind]. rewrite (zst_run N isize_max cs L [] st E2 D). split; [auto|]. intros [Q|Q]; [lia|exact Q].
  - unfold with_capacity, assert_cap. rewrite (proj2 (Nat.leb_le c isize_max) C). cbn [bind].
    rewrite (proj2 (Nat.ltb_lt N c) G). unfold layout_array. rewrite Nat.mul_0_r, (proj2 (Nat.leb_le 0 isize_max)) by lia.
    cbn. tauto.
Qed.
Example C41_case :
  demands_within 100 [] [CPush tt; CPop; CPush tt; CReserve 3] /\
  session 2 0 100 1 [CPush tt; CPop; CPush tt; CReserve 3] = UB /\
  session 2 0 100 1 [CPush tt; CPop; CPush tt; CReserve 2; CAsSlice]
  = Ret ([RUnit; RPop (Some tt); RUnit; RUnit; RSlice [tt]],
         (MkShortVec 2 1 (DStack [Some tt; None]), mem_empty)).
Proof. split; [cbn; repeat split; lia|]. split; reflexivity. Qed.

(** The hypotheses are met: a session of 5 pushes, pops, a reservation and an
    assignment on an inline size of 2, elements of 8 bytes. *)
Definition demo : list (call nat) :=
  [CPush 1; CPush 2; CPush 3; CPop; CAssign 0 7; CReserve 9; CPush 4; CAsSlice; CIsEmpty].
Example C38_case :
  demands_within 9 [] demo /\ Nat.max (Nat.max 2 0) (2 * 9) * 8 <= 1000 /\
  match session 2 8 1000 0 demo with
  | Ret (rs, st) =>
      rs = [RUnit; RUnit; RUnit; RPop (Some 3); RUnit; RUnit; RUnit; RSlice [7; 2; 4]; RBool false] /\
      allocated (log (snd st)) = [(0, 32); (1, 72)] /\ dropped (log (snd st)) = [1]
  | _ => False
  end.
Proof.
  split; [cbn; repeat split; lia|]. split; [apply Nat.leb_le; reflexivity|]. vm_compute. repeat split.
Qed.
Example C40_case : demands_within 2 [] [CPush 1; CPop; CPush 2; CPush 3].
Proof. cbn. repeat split; lia. Qed.

Print Assumptions C38_is_a_stack.
Print Assumptions C38_no_panic.
Print Assumptions C39_freed_once.
Print Assumptions C40_no_allocation.
Print Assumptions C40_new.
Print Assumptions C40_capacity.
Print Assumptions C40_logarithmic.
Print Assumptions C41_any_size_inline_partial.
Print Assumptions C41_zero_sized_refuted.
Print Assumptions C41_zero_sized_exact.
