(** * L_ShortVec: proofs about ShortVec. *)
From Verif Require Export M_ShortVec S_ShortVec L_Base.
From Coq Require Import Lia Permutation.

(** ** Lists *)
Lemma list_set_app {X} (a : list X) x y b : list_set (a ++ x :: b) (length a) y = a ++ y :: b.
Proof. induction a as [|z a IH]; cbn; [reflexivity|]. now rewrite IH. Qed.

Lemma list_set_length {X} (l : list X) i x : length (list_set l i x) = length l.
Proof. revert i. induction l as [|y l IH]; intros [|i]; cbn; auto. Qed.

Lemma list_set_spec {X} (l : list X) i x :
  i < length l -> list_set l i x = firstn i l ++ x :: skipn (S i) l.
Proof.
  revert i. induction l as [|y l IH]; intros [|i] H; cbn in *; try lia; auto. f_equal. apply IH. lia.
Qed.

Lemma nth_error_mid {X} (a : list X) x b : nth_error (a ++ x :: b) (length a) = Some x.
Proof. rewrite nth_error_app2, Nat.sub_diag by lia. reflexivity. Qed.

Lemma firstn_set_same {X} (l : list X) i x : firstn i (list_set l i x) = firstn i l.
Proof. revert i. induction l as [|y l IH]; intros [|i]; cbn; auto. now rewrite IH. Qed.

Lemma firstn_set_snoc {X} (l : list X) i x : i < length l -> firstn (S i) (list_set l i x) = firstn i l ++ [x].
Proof.
  revert i. induction l as [|y l IH]; intros [|i] H; cbn in *; try lia; auto. now rewrite IH by lia.
Qed.

Lemma firstn_set_inside {X} (l : list X) n i x :
  i < n -> firstn n (list_set l i x) = list_set (firstn n l) i x.
Proof.
  revert n i. induction l as [|y l IH]; intros [|n] [|i] H; cbn; try lia; auto. rewrite IH by lia. reflexivity.
Qed.

Lemma list_set_map {X Y} (f : X -> Y) l i x : list_set (map f l) i (f x) = map f (list_set l i x).
Proof. revert i. induction l as [|y l IH]; intros [|i]; cbn; auto. now rewrite IH. Qed.

Lemma firstn_map_prefix {X Y} (f : X -> Y) (cells : list Y) n vs k :
  firstn n cells = map f vs -> k <= n -> firstn k cells = map f (firstn k vs).
Proof. intros H Hk. rewrite <- firstn_map, <- H, firstn_firstn. f_equal. lia. Qed.

Lemma removelast_length {X} (l : list X) : length (removelast l) = length l - 1.
Proof.
  destruct l as [|x l] using rev_ind; [reflexivity|]. rewrite removelast_last, app_length. cbn. lia.
Qed.

Lemma nth_error_firstn' {X} (l : list X) n i : i < n -> nth_error (firstn n l) i = nth_error l i.
Proof.
  revert n i. induction l as [|x l IH]; intros [|n] [|i] H; cbn; auto; try lia. apply IH. lia.
Qed.

Lemma perm_assign {X} (v old : X) a b d :
  Permutation ([v] ++ (a ++ old :: b) ++ d) ((a ++ v :: b) ++ d ++ [old]).
Proof.
  transitivity (v :: old :: (a ++ b) ++ d).
  - cbn. apply perm_skip. rewrite <- !app_assoc. symmetry. apply Permutation_middle.
  - rewrite <- Permutation_middle. cbn. apply perm_skip. rewrite app_assoc. apply Permutation_cons_append.
Qed.

Local Arguments Nat.ltb : simpl never.
Local Arguments Nat.leb : simpl never.
Local Arguments Nat.eqb : simpl never.

(** ** The invariant *)
Section Inv.
  Context {T : Type}.
  Context (N size imax : nat).
  Notation state := (ShortVec T * mem T)%type.

  Lemma read_cells_ok (cells : list (option T)) vs :
    firstn (length vs) cells = map Some vs -> read_cells cells (length vs) = Ret vs.
  Proof.
    revert cells. induction vs as [|v vs IH]; intros [|c cells] H; cbn in *; try discriminate; auto.
    injection H as -> H. rewrite (IH _ H). reflexivity.
  Qed.

  (** Allocations minus frees are the live blocks, ids are never reused. *)
  Definition log_ok (m : mem T) (live : list (nat * nat)) : Prop :=
    Permutation (allocated (log m)) (freed (log m) ++ live) /\
    map fst (allocated (log m)) = seq 0 (length (blocks m)).

  Lemma log_ok_drop m live v : log_ok m live -> log_ok (Mem (blocks m) (log m ++ [EDrop v])) live.
  Proof.
    unfold log_ok, allocated, freed. cbn. rewrite !flat_map_app. cbn. rewrite !app_nil_r. auto.
  Qed.

  Definition inv (vs : list T) (st : state) : Prop :=
    N <= cap (fst st) /\ len (fst st) = length vs /\ length vs <= cap (fst st) /\
    exists pre, Forall (fun b => b_live b = false) pre /\
    match data (fst st) with
    | DStack cells =>
        cap (fst st) = N /\ length cells = N /\ firstn (length vs) cells = map Some vs /\
        blocks (snd st) = pre /\ log_ok (snd st) []
    | DHeap id =>
        N < cap (fst st) /\ cap (fst st) * size <= imax /\ 0 < size /\ id = length pre /\
        exists cells, blocks (snd st) = pre ++ [Block cells (cap (fst st) * size) true] /\
          length cells = cap (fst st) /\ firstn (length vs) cells = map Some vs /\
          log_ok (snd st) [(id, cap (fst st) * size)]
    end.

  Lemma live_last (m : mem T) pre cells sz :
    blocks m = pre ++ [Block cells sz true] -> live_block m (length pre) = Ret (Block cells sz true).
  Proof. intros E. unfold live_block. rewrite E, nth_error_mid. reflexivity. Qed.

  Lemma inv_ptr vs st :
    inv vs st ->
    exists p cells, as_ptr N (fst st) = Ret p /\ cells_of (snd st) (fst st) p = Ret cells /\
      length cells = cap (fst st) /\ firstn (length vs) cells = map Some vs.
  Proof.
    intros [H1 [H2 [H3 [pre [Hd H]]]]]. destruct st as [[c l d] m]. cbn in *. unfold as_ptr, is_heap. cbn.
    destruct d as [cells|id].
    - destruct H as [-> [E1 [E2 _]]]. exists PStack, cells. rewrite Nat.ltb_irrefl. auto.
    - destruct H as [G1 [G2 [G3 [-> [cells [E1 [E2 [E3 _]]]]]]]]. exists (PHeap (length pre)), cells.
      destruct (Nat.ltb_spec N c); [|lia]. cbn. rewrite (live_last _ _ _ _ E1). auto.
  Qed.

  Lemma inv_as_slice vs st : inv vs st -> as_slice N (snd st) (fst st) = Ret vs.
  Proof.
    intros [H1 [H2 [H3 [pre [Hd H]]]]]. destruct st as [[c l d] m]. cbn in *. unfold as_slice, is_heap. cbn. subst l.
    destruct d as [cells|id].
    - destruct H as [-> [E1 [E2 _]]]. rewrite Nat.ltb_irrefl. cbn.
      destruct (Nat.leb_spec (length vs) (length cells)); [|lia]. now apply read_cells_ok.
    - destruct H as [G1 [G2 [G3 [-> [cells [E1 [E2 [E3 _]]]]]]]].
      destruct (Nat.ltb_spec N c); [|lia]. cbn. rewrite (live_last _ _ _ _ E1). cbn. now apply read_cells_ok.
  Qed.

  (** Writing at [i]: the cells change, everything else stays. *)
  Lemma inv_write vs vs' st i v :
    inv vs st -> i < cap (fst st) -> length vs' <= cap (fst st) ->
    (forall cells, firstn (length vs) cells = map Some vs -> length cells = cap (fst st) ->
       firstn (length vs') (list_set cells i (Some v)) = map Some vs') ->
    exists p st', as_ptr N (fst st) = Ret p /\ ptr_write (snd st) (fst st) p i v = Ret st' /\
      cap (fst st') = cap (fst st) /\ len (fst st') = len (fst st) /\ log (snd st') = log (snd st) /\
      inv vs' (MkShortVec (cap (fst st')) (length vs') (data (fst st')), snd st').
  Proof.
    intros [H1 [H2 [H3 [pre [Hd H]]]]] Hi Hv' Hc. destruct st as [[c l d] m]. cbn in *.
    unfold as_ptr, is_heap. cbn. destruct d as [cells|id].
    - destruct H as [-> [E1 [E2 [E3 E4]]]]. rewrite Nat.ltb_irrefl. exists PStack. eexists. split; [reflexivity|].
      cbn. destruct (Nat.leb_spec (length cells) i); [lia|]. split; [reflexivity|]. cbn. repeat split; auto.
      exists pre. split; auto. repeat split; auto; try lia.
      + now rewrite list_set_length.
      + apply E4.
      + apply E4.
    - destruct H as [G1 [G2 [G3 [-> [cells [E1 [E2 [E3 E4]]]]]]]].
      destruct (Nat.ltb_spec N c); [|lia]. exists (PHeap (length pre)). eexists. split; [reflexivity|].
      unfold ptr_write; cbn. rewrite (live_last _ _ _ _ E1). cbn. destruct (Nat.leb_spec (length cells) i); [lia|].
      split; [reflexivity|]. cbn. repeat split; auto.
      exists pre. split; auto. repeat split; auto.
      exists (list_set cells i (Some v)). rewrite E1, list_set_app. repeat split; auto.
      + now rewrite list_set_length.
      + apply E4.
      + cbn. destruct E4 as [_ E4]. rewrite E1, app_length in E4. rewrite app_length. exact E4.
  Qed.

  (** Growth. *)
  Lemma grow_ok vs st n :
    inv vs st -> cap (fst st) < n -> n <= imax -> n * size <= imax -> 0 < size ->
    exists st', reserve_exact N size imax (snd st) (fst st) n = Ret st' /\ inv vs st' /\
      cap (fst st') = n /\ len (fst st') = len (fst st) /\
      dropped (log (snd st')) = dropped (log (snd st)) /\
      length (allocated (log (snd st'))) = 1 + length (allocated (log (snd st))).
  Proof.
    intros [H1 [H2 [H3 [pre [Hd H]]]]] Hn Hi Hs Hp. destruct st as [[c l d] m]. cbn in *. subst l.
    unfold reserve_exact, assert_cap. rewrite (proj2 (Nat.leb_le n imax)) by lia. cbn.
    destruct (Nat.leb_spec n c); [lia|].
    unfold layout_array at 1. rewrite (proj2 (Nat.leb_le (n * size) imax)) by lia. cbn.
    unfold is_heap. cbn. destruct d as [cells|id].
    - destruct H as [-> [E1 [E2 [E3 [E4 E5]]]]]. rewrite Nat.ltb_irrefl.
      unfold alloc. destruct (Nat.eqb_spec (n * size) 0); [nia|]. cbn. unfold live_block. cbn.
      rewrite nth_error_mid. cbn. rewrite repeat_length.
      destruct (Nat.leb_spec (length vs) (length cells)); [|lia].
      destruct (Nat.leb_spec (length vs) n); [|lia]. cbn. eexists. split; [reflexivity|]. cbn.
      rewrite list_set_app. split; [|split; [reflexivity|split; [reflexivity|split]]].
      + split; [cbn; lia|]. split; [reflexivity|]. split; [cbn; lia|]. exists pre. split; auto.
        cbn. split; [lia|]. split; [lia|]. split; [lia|]. split; [now rewrite E3|].
        eexists. rewrite E3. split; [reflexivity|]. split; [|split].
        * rewrite app_length, firstn_length, skipn_length, repeat_length. lia.
        * rewrite firstn_app, firstn_firstn, firstn_length, Nat.min_id.
          replace (length vs - Nat.min (length vs) (length cells)) with 0 by lia. cbn. rewrite app_nil_r. exact E2.
        * split; cbn.
          -- unfold allocated, freed in *. rewrite !flat_map_app. cbn. rewrite !app_nil_r in *.
             now apply Permutation_app_tail.
          -- unfold allocated in *. rewrite flat_map_app, map_app, E5, E3, app_length, seq_app. reflexivity.
      + unfold dropped. rewrite flat_map_app. cbn. apply app_nil_r.
      + unfold allocated. rewrite flat_map_app, app_length. cbn. lia.
    - destruct H as [G1 [G2 [G3 [-> [cells [E1 [E2 [E3 [E4 E5]]]]]]]]].
      destruct (Nat.ltb_spec N c); [|lia]. unfold layout_array.
      rewrite (proj2 (Nat.leb_le (c * size) imax)) by lia. cbn.
      unfold realloc. rewrite (live_last _ _ _ _ E1). cbn. destruct (Nat.eqb_spec (n * size) 0); [nia|].
      unfold dealloc. rewrite (live_last _ _ _ _ E1). cbn. rewrite Nat.eqb_refl. cbn.
      eexists. split; [reflexivity|]. cbn. rewrite E1, list_set_app.
      split; [|split; [reflexivity|split; [reflexivity|split]]].
      + split; [cbn; lia|]. split; [reflexivity|]. split; [cbn; lia|].
        exists (pre ++ [Block cells (c * size) false]). split; [apply Forall_app; split; auto|].
        cbn. split; [lia|]. split; [lia|]. split; [lia|]. split; [reflexivity|].
        eexists. split; [reflexivity|]. split; [|split].
        * rewrite app_length, repeat_length, firstn_length. lia.
        * rewrite firstn_all2 with (n := n) by lia. rewrite firstn_app.
          replace (length vs - length cells) with 0 by lia. cbn. rewrite app_nil_r. exact E3.
        * split; cbn.
          -- unfold allocated, freed in *. rewrite !flat_map_app. cbn. rewrite !app_nil_r in *.
             rewrite <- app_assoc. cbn. rewrite E4. rewrite <- app_assoc. reflexivity.
          -- unfold allocated in *. rewrite !flat_map_app, !map_app, E5, E1, !app_length. cbn.
             rewrite (seq_app (length pre + 1) 1), app_nil_r. reflexivity.
      + unfold dropped. rewrite !flat_map_app. cbn. now rewrite !app_nil_r.
      + unfold allocated. rewrite !flat_map_app, !app_length. cbn. lia.
  Qed.

  Lemma grow_panics (st : state) n :
    imax < n \/ (cap (fst st) < n /\ imax < n * size) ->
    reserve_exact N size imax (snd st) (fst st) n = Panic.
  Proof.
    intros H. unfold reserve_exact, assert_cap. destruct (Nat.leb_spec n imax); [|reflexivity]. cbn.
    destruct (Nat.leb_spec n (cap (fst st))); [lia|]. unfold layout_array.
    destruct (Nat.leb_spec (n * size) imax); [lia|]. reflexivity.
  Qed.

  (** Reserving to at least [n] (doubling). *)
  Lemma reserve_cases vs st n :
    inv vs st -> 0 < size \/ n <= cap (fst st) ->
    (n <= cap (fst st) /\ reserve N size imax (snd st) (fst st) n = Ret st) \/
    (cap (fst st) < n /\ imax < Nat.max (cap (fst st) * 2) n * Nat.max 1 size /\
     reserve N size imax (snd st) (fst st) n = Panic) \/
    (cap (fst st) < n /\ exists st', reserve N size imax (snd st) (fst st) n = Ret st' /\ inv vs st' /\
       cap (fst st') = Nat.max (cap (fst st) * 2) n /\ len (fst st') = len (fst st) /\
       dropped (log (snd st')) = dropped (log (snd st)) /\
       length (allocated (log (snd st'))) = 1 + length (allocated (log (snd st)))).
  Proof.
    intros Hinv Hs. unfold reserve. destruct (Nat.leb_spec n (cap (fst st))) as [Hl|Hl].
    - left. destruct st. auto.
    - right. destruct Hs as [Hs|Hs]; [|lia]. set (g := Nat.max (cap (fst st) * 2) n).
      replace (Nat.max 1 size) with size by lia.
      destruct (Nat.ltb_spec imax (g * size)) as [Hg|Hg].
      + left. repeat split; auto. apply grow_panics. right. unfold g in *. lia.
      + right. split; auto. apply grow_ok; auto; try (unfold g in *; lia). nia.
  Qed.

  Lemma reserve_exact_cases vs st n :
    inv vs st -> 0 < size \/ n <= cap (fst st) ->
    (n <= cap (fst st) /\ reserve_exact N size imax (snd st) (fst st) n = Ret st) \/
    (imax < n * Nat.max 1 size /\ reserve_exact N size imax (snd st) (fst st) n = Panic) \/
    (cap (fst st) < n /\ exists st', reserve_exact N size imax (snd st) (fst st) n = Ret st' /\ inv vs st' /\
       cap (fst st') = n /\ len (fst st') = len (fst st) /\
       dropped (log (snd st')) = dropped (log (snd st)) /\
       length (allocated (log (snd st'))) = 1 + length (allocated (log (snd st)))).
  Proof.
    intros Hinv Hs. destruct (Nat.leb_spec n imax) as [Hi|Hi].
    2: { right. left. split; [nia|]. apply grow_panics. auto. }
    destruct (Nat.leb_spec n (cap (fst st))) as [Hl|Hl].
    - left. split; auto. unfold reserve_exact, assert_cap.
      rewrite (proj2 (Nat.leb_le n imax)), (proj2 (Nat.leb_le n (cap (fst st)))) by lia. cbn. destruct st. reflexivity.
    - right. destruct Hs as [Hs|Hs]; [|lia].
      replace (Nat.max 1 size) with size by lia.
      destruct (Nat.ltb_spec imax (n * size)) as [Hg|Hg].
      + left. repeat split; auto. apply grow_panics. auto.
      + right. split; auto. apply grow_ok; auto.
  Qed.

  (** ** One call *)
  Definition returned_by (r : reply T) : list T := returned [r].
  Definition given_by (c : call T) : list T := given [c].

  (** Capacity after a call that succeeds. *)
  Definition cap_after (c : call T) (k n : nat) : nat :=
    match c with
    | CPush _ => if n + 1 <=? k then k else Nat.max (k * 2) (n + 1)
    | CReserve r => if r <=? k then k else Nat.max (k * 2) r
    | CReserveExact r => Nat.max k r
    | _ => k
    end.

  Definition grew (c : call T) (k n : nat) : nat := if demand n c <=? k then 0 else 1.

  Lemma step_cases vs st c r vs' :
    inv vs st -> stack_step vs c = Some (r, vs') ->
    0 < size \/ demand (length vs) c <= cap (fst st) ->
    (perform N size imax st c = Panic /\
     imax < Nat.max (cap (fst st)) (cap_after c (cap (fst st)) (length vs)) * Nat.max 1 size /\
     (cap (fst st) < demand (length vs) c \/ imax < demand (length vs) c)) \/
    (exists st', perform N size imax st c = Ret (r, st') /\ inv vs' st' /\
       cap (fst st') = cap_after c (cap (fst st)) (length vs) /\
       length (allocated (log (snd st'))) = grew c (cap (fst st)) (length vs) + length (allocated (log (snd st))) /\
       Permutation (given_by c ++ vs ++ dropped (log (snd st)))
                   (returned_by r ++ vs' ++ dropped (log (snd st')))).
  Proof.
    intros Hinv Hstep Hs. destruct st as [sv m]. unfold perform. destruct c as [v| |n|n| | |i v]; cbn in Hstep.
    - (* push *)
      injection Hstep as <- <-. cbn [demand] in Hs. pose proof Hinv as [_ [Hlen _]]. cbn [fst] in Hlen.
      unfold push. rewrite Hlen. unfold grew. cbn [cap_after demand].
      assert (forall st1, inv vs st1 -> len (fst st1) = length vs -> length vs < cap (fst st1) ->
        exists st', (p <- as_ptr N (fst st1) ;;
                     ' r <- ptr_write (snd st1) (fst st1) p (length vs) v ;;
                     Ret (MkShortVec (cap (fst r)) (length vs + 1) (data (fst r)), snd r)) = Ret st' /\
          inv (vs ++ [v]) st' /\ cap (fst st') = cap (fst st1) /\ log (snd st') = log (snd st1)) as Hw.
      { intros st1 I1 L1 C1.
        destruct (inv_write vs (vs ++ [v]) st1 (length vs) v I1) as [p [st2 [W1 [W2 [W3 [W4 [W5 W6]]]]]]].
        - lia.
        - rewrite app_length. cbn. lia.
        - intros cells F L. rewrite app_length, Nat.add_1_r, firstn_set_snoc by lia. rewrite F, map_app. reflexivity.
        - exists (MkShortVec (cap (fst st2)) (length vs + 1) (data (fst st2)), snd st2). rewrite W1. cbn. rewrite W2. cbn.
          split; [reflexivity|]. split; [|auto].
          replace (length vs + 1) with (length (vs ++ [v])) by (rewrite app_length; reflexivity). exact W6. }
      destruct (reserve_cases vs (sv, m) (length vs + 1) Hinv) as [[E1 E2]|[[E1 [E2 E3]]|[E1 [st1 [E2 [E3 [E4 [E5 [E6 E7]]]]]]]]].
      + auto.
      + right. cbn [fst snd] in *. rewrite E2. cbn [bind fst snd].
        destruct (Hw (sv, m) Hinv Hlen ltac:(cbn; lia)) as [st' [W1 [W2 [W3 W4]]]]. cbn [fst snd] in *. rewrite W1. cbn.
        exists st'. split; [reflexivity|]. rewrite (proj2 (Nat.leb_le _ _) E1). rewrite W3, W4. split; [exact W2|]. split; [auto|]. split; [auto|].
        cbn. rewrite <- app_assoc. apply Permutation_middle.
      + left. cbn [fst snd] in *. rewrite E3. cbn. split; auto. destruct (Nat.leb_spec (length vs + 1) (cap sv)); [lia|].
        split; [eapply Nat.lt_le_trans; [exact E2|]; apply Nat.mul_le_mono_r; lia|]. lia.
      + right. cbn [fst snd] in *. rewrite E2. cbn [bind fst snd].
        destruct (Hw st1 E3 ltac:(congruence) ltac:(lia)) as [st' [W1 [W2 [W3 W4]]]]. rewrite W1. cbn.
        exists st'. split; [reflexivity|]. destruct (Nat.leb_spec (length vs + 1) (cap sv)); [lia|].
        rewrite W3, W4, E6. split; [exact W2|]. split; [auto|]. split; [auto|].
        cbn. rewrite <- app_assoc. apply Permutation_middle.
    - (* pop *)
      injection Hstep as <- <-. right. unfold pop, is_empty. pose proof Hinv as [_ [Hlen _]]. cbn [fst] in Hlen. rewrite Hlen.
      destruct vs as [|x vs _] using rev_ind.
      + cbn. exists (sv, m). split; [reflexivity|]. split; [exact Hinv|]. split; [auto|]. split; [auto|]. auto.
      + rewrite app_length. cbn [length]. destruct (Nat.eqb_spec (length vs + 1) 0); [lia|].
        destruct (inv_ptr _ _ Hinv) as [p [cells [P1 [P2 [P3 P4]]]]]. cbn [fst snd] in *. rewrite P1. cbn [bind].
        unfold ptr_read. cbn [len].
        assert (cells_of m {| cap := cap sv; len := length vs + 1 - 1; data := data sv |} p = Ret cells) as ->.
        { rewrite <- P2. reflexivity. }
        cbn [bind]. replace (length vs + 1 - 1) with (length vs) by lia.
        assert (nth_error cells (length vs) = Some (Some x)) as ->.
        { rewrite <- (nth_error_firstn' cells (length (vs ++ [x]))) by (rewrite app_length; cbn; lia).
          rewrite P4, map_app, <- (map_length Some vs). apply nth_error_mid. }
        cbn. eexists. split; [rewrite rev_app_distr; reflexivity|]. cbn [fst snd cap log]. rewrite removelast_last.
        split; [|split; [reflexivity|split; [reflexivity|]]].
        * destruct Hinv as [I1 [I2 [I3 [pre [I4 I5]]]]]. cbn in *. rewrite app_length in *. cbn in *.
          split; [auto|]. split; [auto|]. split; [cbn; lia|]. exists pre. split; auto. cbn.
          assert (forall cl, firstn (length vs + 1) cl = map Some (vs ++ [x]) -> firstn (length vs) cl = map Some vs) as Hcut.
          { intros cl Hcl. erewrite firstn_map_prefix; [|exact Hcl|lia]. rewrite firstn_app, Nat.sub_diag, firstn_all. cbn. now rewrite app_nil_r. }
          destruct (data sv) as [cl|id].
          -- destruct I5 as [J1 [J2 [J3 [J4 J5]]]]. split; [auto|]. split; [auto|]. split; [auto|]. split; auto.
          -- destruct I5 as [J1 [J2 [J3 [J4 [cl [J5 [J6 [J7 J8]]]]]]]]. split; [auto|]. split; [auto|]. split; [auto|]. split; [auto|].
             exists cl. split; [auto|]. split; [auto|]. split; auto.
        * rewrite rev_app_distr, <- app_assoc. cbn. symmetry. apply Permutation_middle.
    - (* reserve *)
      injection Hstep as <- <-. cbn [demand] in Hs. unfold grew. cbn [cap_after demand].
      destruct (reserve_cases vs (sv, m) n Hinv Hs) as [[E1 E2]|[[E1 [E2 E3]]|[E1 [st1 [E2 [E3 [E4 [E5 [E6 E7]]]]]]]]]; cbn [fst snd] in *.
      + right. rewrite E2. cbn. exists (sv, m). split; [reflexivity|]. rewrite (proj2 (Nat.leb_le _ _) E1). split; [exact Hinv|]. split; [auto|]. split; [auto|]. auto.
      + left. rewrite E3. cbn. split; auto. destruct (Nat.leb_spec n (cap sv)); [lia|].
        split; [eapply Nat.lt_le_trans; [exact E2|]; apply Nat.mul_le_mono_r; lia|]. lia.
      + right. rewrite E2. cbn. exists st1. split; [reflexivity|]. destruct (Nat.leb_spec n (cap sv)); [lia|]. rewrite E6. split; [exact E3|]. split; [auto|]. split; [auto|]. auto.
    - (* reserve_exact *)
      injection Hstep as <- <-. cbn [demand] in Hs. unfold grew. cbn [cap_after demand].
      destruct (reserve_exact_cases vs (sv, m) n Hinv Hs) as [[E1 E2]|[[E1 E3]|[E1 [st1 [E2 [E3 [E4 [E5 [E6 E7]]]]]]]]]; cbn [fst snd] in *.
      + right. rewrite E2. cbn. exists (sv, m). split; [reflexivity|]. rewrite (proj2 (Nat.leb_le _ _) E1). rewrite Nat.max_l by auto. split; [exact Hinv|]. split; [auto|]. split; [auto|]. auto.
      + left. rewrite E3. cbn. split; auto. split; [eapply Nat.lt_le_trans; [exact E1|]; apply Nat.mul_le_mono_r; lia|].
        destruct (Nat.leb_spec n imax); [|lia]. left. destruct (Nat.leb_spec n (cap sv)); [|lia].
        exfalso. revert E3. unfold reserve_exact, assert_cap.
        rewrite (proj2 (Nat.leb_le n imax)), (proj2 (Nat.leb_le n (cap sv))) by lia. discriminate.
      + right. rewrite E2. cbn. exists st1. split; [reflexivity|]. destruct (Nat.leb_spec n (cap sv)); [lia|]. rewrite E6, Nat.max_r by lia. split; [exact E3|]. split; [auto|]. split; [auto|]. auto.
    - (* as_slice *)
      injection Hstep as <- <-. right. pose proof (inv_as_slice _ _ Hinv) as E. cbn [fst snd] in E. rewrite E. cbn. exists (sv, m).
      split; [reflexivity|]. split; [exact Hinv|]. split; [auto|]. split; [auto|]. auto.
    - (* is_empty *)
      injection Hstep as <- <-. right. exists (sv, m). pose proof Hinv as [_ [Hlen _]]. cbn [fst] in Hlen. unfold is_empty. rewrite Hlen.
      split; [destruct vs; reflexivity|]. split; [exact Hinv|]. split; [auto|]. split; [auto|]. auto.
    - (* assign *)
      destruct (Nat.ltb_spec i (length vs)) as [Hi|Hi]; [|discriminate]. injection Hstep as <- <-.
      right. unfold assign. pose proof (inv_as_slice _ _ Hinv) as E. cbn [fst snd] in E. rewrite E. cbn [bind].
      destruct (nth_error vs i) as [old|] eqn:Hold; [|apply nth_error_None in Hold; lia].
      assert (vs = firstn i vs ++ old :: skipn (S i) vs) as Hvs.
      { clear -Hold. revert i Hold. induction vs as [|x vs IH]; intros [|i] H; cbn in *; try discriminate.
        - injection H as ->. reflexivity.
        - f_equal. auto. }
      pose proof Hinv as [_ [Hlen [Hcap _]]]. cbn [fst] in Hlen, Hcap.
      destruct (inv_write vs (list_set vs i v) (sv, m) i v Hinv) as [p [st2 [W1 [W2 [W3 [W4 [W5 W6]]]]]]].
      + cbn. lia.
      + cbn. rewrite list_set_length. lia.
      + intros cells F L. rewrite list_set_length, firstn_set_inside by lia. rewrite F. apply list_set_map.
      + cbn [fst snd] in *. rewrite W1. cbn [bind]. rewrite W2. cbn.
        eexists. split; [reflexivity|]. cbn [fst snd log]. rewrite W3, W5.
        pose proof (list_set_spec vs i v Hi) as Hset. cbn in Hset. rewrite <- Hset. clear Hset.
        split; [|split; [reflexivity|split]].
        * rewrite list_set_length in W6. rewrite <- Hlen, <- W4 in W6. destruct st2 as [[c2 l2 d2] m2]. cbn in *.
          destruct W6 as [I1 [I2 [I3 [pre [I4 I5]]]]]. cbn in *.
          split; [auto|]. split; [cbn; congruence|]. split; [auto|]. exists pre. split; auto. cbn.
          destruct d2 as [cl|id].
          -- destruct I5 as [J1 [J2 [J3 [J4 J5]]]]. split; [auto|]. split; [auto|]. split; [auto|]. split; [auto|].
             rewrite <- W5; now apply log_ok_drop.
          -- destruct I5 as [J1 [J2 [J3 [J4 [cl [J5 [J6 [J7 J8]]]]]]]]. split; [auto|]. split; [auto|]. split; [auto|]. split; [auto|].
             exists cl. split; [auto|]. split; [auto|]. split; [auto|]. rewrite <- W5; now apply log_ok_drop.
        * unfold allocated. rewrite flat_map_app. cbn. rewrite app_nil_r. reflexivity.
        * unfold dropped. rewrite flat_map_app. cbn [flat_map app]. rewrite list_set_spec by auto. rewrite Hvs at 1.
          apply perm_assign.
  Qed.

  (** ** Runs *)
  Lemma given_cons c (cs : list (call T)) : given (c :: cs) = given_by c ++ given cs.
  Proof. unfold given_by, given. cbn. now rewrite app_nil_r. Qed.
  Lemma returned_cons r (rs : list (reply T)) : returned (r :: rs) = returned_by r ++ returned rs.
  Proof. unfold returned_by, returned. cbn. now rewrite app_nil_r. Qed.

  Lemma cap_after_ge c k n : k <= cap_after c k n.
  Proof. destruct c; cbn; try lia; destruct (_ <=? _); lia. Qed.
  Lemma cap_after_bound c k n b : demand n c <= b -> k <= 2 * b \/ k <= b -> cap_after c k n <= Nat.max k (2 * b).
  Proof.
    destruct c; cbn; intros; try lia;
      match goal with |- context [?a <=? ?b] => destruct (Nat.leb_spec a b) | _ => idtac end; lia.
  Qed.
  Lemma cap_after_bound' c k n b : demand n c <= b -> cap_after c k n <= Nat.max k (2 * b).
  Proof.
    destruct c; cbn; intros; try lia;
      match goal with |- context [?a <=? ?b] => destruct (Nat.leb_spec a b) | _ => idtac end; lia.
  Qed.

  Lemma run_sound cs : forall vs st,
    0 < size -> inv vs st ->
    match perform_all N size imax st cs with
    | Ret (rs, st') => exists vs', stack_run vs cs = Some (rs, vs') /\ inv vs' st' /\
        cap (fst st) <= cap (fst st') /\
        Permutation (given cs ++ vs ++ dropped (log (snd st)))
                    (returned rs ++ vs' ++ dropped (log (snd st')))
    | Panic => True
    | UB => False
    | OutOfFuel => False
    end.
  Proof.
    induction cs as [|c cs IH]; intros vs st Hs Hi.
    - cbn. exists vs. split; [auto|]. split; [auto|]. split; auto.
    - cbn [perform_all]. destruct (stack_step vs c) as [[r vs']|] eqn:Hst.
      + destruct (step_cases vs st c r vs' Hi Hst (or_introl Hs)) as [[E _]|[st1 [E1 [E2 [E3 [E4 E5]]]]]].
        * rewrite E. cbn. exact I.
        * rewrite E1. cbn [bind fst snd]. specialize (IH vs' st1 Hs E2).
          destruct (perform_all N size imax st1 cs) as [[rs st2]| | |]; cbn [bind fst snd]; auto.
          destruct IH as [vs2 [R1 [R2 [R3 R4]]]]. exists vs2. cbn [stack_run]. rewrite Hst, R1.
          split; [auto|]. split; [auto|]. split.
          -- pose proof (cap_after_ge c (cap (fst st)) (length vs)). lia.
          -- rewrite given_cons, returned_cons, <- !app_assoc. rewrite <- R4.
             rewrite (Permutation_app_comm (given_by c)), <- app_assoc, (Permutation_app_comm _ (given_by c)).
             rewrite E5. rewrite !app_assoc. apply Permutation_app_tail. apply Permutation_app_tail. apply Permutation_app_comm.
      + (* a client error *)
        destruct c as [v| |n|n| | |i v]; cbn in Hst; try discriminate.
        destruct (Nat.ltb_spec i (length vs)); [discriminate|].
        destruct st as [sv m]. unfold perform, assign. pose proof (inv_as_slice _ _ Hi) as E. cbn [fst snd] in E. rewrite E.
        cbn [bind]. rewrite (proj2 (nth_error_None vs i)) by lia. exact I.
  Qed.

  (** Within the demands the run succeeds, without allocating when they stay
      within the capacity. *)
  Lemma run_total bound cs : forall vs st,
    inv vs st -> demands_within bound vs cs ->
    (bound <= cap (fst st) /\ bound <= imax) \/ (0 < size /\ Nat.max (cap (fst st)) (2 * bound) * size <= imax) ->
    exists rs st' vs', perform_all N size imax st cs = Ret (rs, st') /\
      stack_run vs cs = Some (rs, vs') /\ inv vs' st' /\
      cap (fst st) <= cap (fst st') /\
      (bound <= cap (fst st) -> cap (fst st') = cap (fst st) /\
         length (allocated (log (snd st'))) = length (allocated (log (snd st)))) /\
      Permutation (given cs ++ vs ++ dropped (log (snd st)))
                  (returned rs ++ vs' ++ dropped (log (snd st'))).
  Proof.
    induction cs as [|c cs IH]; intros vs st Hi Hd Hb.
    - exists [], st, vs. cbn. split; [auto|]. split; [auto|]. split; [auto|]. split; [auto|]. split; auto.
    - cbn [demands_within] in Hd. destruct Hd as [Hd1 Hd2].
      destruct (stack_step vs c) as [[r vs1]|] eqn:Hst; [|contradiction].
      destruct (step_cases vs st c r vs1 Hi Hst) as [[E [E1 E2]]|[st1 [E1 [E2 [E3 [E4 E5]]]]]].
      + lia.
      + exfalso. destruct Hb as [[Hb1 Hb2]|[Hb1 Hb2]].
        * lia.
        * pose proof (cap_after_bound' c (cap (fst st)) (length vs) bound Hd1).
          replace (Nat.max 1 size) with size in E1 by lia. nia.
      + assert (bound <= cap (fst st) -> cap (fst st1) = cap (fst st) /\
                 length (allocated (log (snd st1))) = length (allocated (log (snd st)))) as Hc.
        { intros Hle. unfold grew in E4. rewrite (proj2 (Nat.leb_le (demand (length vs) c) (cap (fst st)))) in E4 by lia.
          split; [|exact E4]. rewrite E3. destruct c; cbn in *; try lia;
            match goal with |- context [?a <=? ?b] => destruct (Nat.leb_spec a b) | _ => idtac end; lia. }
        assert (cap (fst st) <= cap (fst st1)) as Hge by (rewrite E3; apply cap_after_ge).
        destruct (IH vs1 st1 E2 Hd2) as [rs [st2 [vs2 [R1 [R2 [R3 [R4 [R5 R6]]]]]]]].
        { destruct Hb as [[Hb1 Hb2]|[Hb1 Hb2]]; [left; lia|right; split; auto].
          pose proof (cap_after_bound' c (cap (fst st)) (length vs) bound Hd1) as B. rewrite <- E3 in B. nia. }
        exists (r :: rs), st2, vs2. cbn [perform_all stack_run]. rewrite E1. cbn [bind fst snd]. rewrite R1. cbn [bind fst snd].
        rewrite Hst, R2. split; [auto|]. split; [auto|]. split; [auto|]. split; [lia|]. split.
        * intros Hle. destruct (Hc Hle) as [C1 C2]. destruct R5 as [C3 C4]; [lia|]. split; congruence.
        * rewrite given_cons, returned_cons, <- !app_assoc. rewrite <- R6.
          rewrite (Permutation_app_comm (given_by c)), <- app_assoc, (Permutation_app_comm _ (given_by c)).
          rewrite E5. rewrite !app_assoc. apply Permutation_app_tail. apply Permutation_app_tail. apply Permutation_app_comm.
  Qed.

  (** A run that returns meets [stack_run]; and one that does not exceed [k]
      allocations ... : the number of allocations is logarithmic. *)
  Definition not_exact (c : call T) : Prop := match c with CReserveExact _ => False | _ => True end.

  Lemma run_allocs bound cs : forall vs st rs st',
    inv vs st -> demands_within bound vs cs -> Forall not_exact cs -> 0 < size ->
    perform_all N size imax st cs = Ret (rs, st') ->
    length (allocated (log (snd st))) <= length (allocated (log (snd st'))) /\
    let k := length (allocated (log (snd st'))) - length (allocated (log (snd st))) in
    (1 <= k -> exists last, last < bound /\ cap (fst st) * 2 ^ (k - 1) <= last /\ (2 <= k -> 2 ^ (k - 2) <= last)).
  Proof.
    induction cs as [|c cs IH]; intros vs st rs st' Hi Hd Hx Hs Hp; cbn [perform_all] in Hp.
    - injection Hp as <- <-. cbn. rewrite Nat.sub_diag. cbn. split; lia.
    - cbn [demands_within] in Hd. destruct Hd as [Hd1 Hd2]. inversion Hx as [|? ? Hx1 Hx2]; subst.
      destruct (stack_step vs c) as [[r vs1]|] eqn:Hst; [|contradiction].
      destruct (step_cases vs st c r vs1 Hi Hst (or_introl Hs)) as [[E [E1 E2]]|[st1 [E1 [E2 [E3 [E4 E5]]]]]].
      + rewrite E in Hp. discriminate.
      + rewrite E1 in Hp. cbn [bind fst snd] in Hp.
        destruct (perform_all N size imax st1 cs) as [[rs2 st2]| | |] eqn:Hp2; try discriminate.
        cbn [bind fst snd] in Hp. injection Hp as <- <-.
        specialize (IH vs1 st1 rs2 st2 E2 Hd2 Hx2 Hs Hp2). cbn zeta in IH |- *.
        destruct IH as [I1 I2].
        assert (grew c (cap (fst st)) (length vs) = 0 /\ cap (fst st1) = cap (fst st) \/
                grew c (cap (fst st)) (length vs) = 1 /\ cap (fst st) < bound /\ 1 <= cap (fst st1) /\ cap (fst st) * 2 <= cap (fst st1)) as Hg.
        { unfold grew. rewrite E3. destruct c; cbn in *; try contradiction; auto;
            match goal with |- context [?a <=? ?b] => destruct (Nat.leb_spec a b) | _ => idtac end; lia. }
        set (k1 := length (allocated (log (snd st2))) - length (allocated (log (snd st1)))) in *.
        split; [lia|]. destruct Hg as [[G1 G2]|[G1 [G2 [G3 G4]]]].
        * replace (length (allocated (log (snd st2))) - length (allocated (log (snd st)))) with k1 by (unfold k1; lia).
          rewrite G2 in *. auto.
        * replace (length (allocated (log (snd st2))) - length (allocated (log (snd st)))) with (S k1) by (unfold k1; lia).
          intros _. destruct k1 as [|k2] eqn:Ek.
          -- exists (cap (fst st)). cbn. repeat split; lia.
          -- destruct I2 as [last [L1 [L2 L3]]]; [lia|]. exists last. cbn [Nat.sub] in *. rewrite Nat.sub_0_r in *.
             split; auto. cbn [Nat.pow]. split; [nia|]. intros _. nia.
  Qed.

  (** ** Creation and drop *)
  Lemma with_capacity_ok (m : mem T) n :
    blocks m = [] -> log m = [] -> n <= N \/ (0 < size /\ n * size <= imax) -> n <= imax ->
    exists st, with_capacity N size imax m n = Ret st /\ inv [] st /\ cap (fst st) = Nat.max N n /\
      dropped (log (snd st)) = [] /\ (n <= N -> log (snd st) = []).
  Proof.
    intros Hb Hl Hn Hi. destruct m as [bs lg]. cbn in *. subst. unfold with_capacity, assert_cap.
    rewrite (proj2 (Nat.leb_le n imax)) by lia. cbn. destruct (Nat.ltb_spec N n).
    - unfold layout_array. destruct Hn as [Hn|[Hn1 Hn2]]; [lia|]. rewrite (proj2 (Nat.leb_le (n * size) imax)) by lia. cbn.
      unfold alloc. destruct (Nat.eqb_spec (n * size) 0); [nia|]. cbn. eexists. split; [reflexivity|]. cbn.
      split; [|split; [lia|split; [reflexivity|lia]]].
      split; [cbn; lia|]. split; [reflexivity|]. split; [cbn; lia|]. exists []. split; [constructor|]. cbn.
      split; [lia|]. split; [lia|]. split; [lia|]. split; [reflexivity|]. eexists. split; [reflexivity|].
      split; [apply repeat_length|]. split; [reflexivity|]. split; reflexivity.
    - eexists. split; [reflexivity|]. cbn. split; [|split; [lia|split; reflexivity]].
      split; [cbn; lia|]. split; [reflexivity|]. split; [cbn; lia|]. exists []. split; [constructor|]. cbn.
      split; [lia|]. split; [apply repeat_length|]. split; [reflexivity|]. split; [reflexivity|]. split; reflexivity.
  Qed.

  Lemma with_capacity_cases (m : mem T) n :
    blocks m = [] -> log m = [] -> 0 < size \/ n <= N ->
    with_capacity N size imax m n = Panic \/
    exists st, with_capacity N size imax m n = Ret st /\ inv [] st /\ cap (fst st) = Nat.max N n /\
      dropped (log (snd st)) = [] /\ (n <= N -> log (snd st) = []).
  Proof.
    intros Hb Hl Hn.
    destruct (Nat.leb_spec n imax) as [Hi|Hi].
    - destruct (Nat.leb_spec n N).
      + right. apply with_capacity_ok; auto.
      + destruct (Nat.leb_spec (n * size) imax).
        * right. apply with_capacity_ok; auto. right. lia.
        * left. unfold with_capacity, assert_cap, layout_array. rewrite (proj2 (Nat.leb_le n imax)) by lia. cbn.
          rewrite (proj2 (Nat.ltb_lt N n)) by lia. rewrite (proj2 (Nat.leb_gt (n * size) imax)) by lia. reflexivity.
    - left. unfold with_capacity, assert_cap. rewrite (proj2 (Nat.leb_gt n imax)) by lia. reflexivity.
  Qed.

  Lemma dropped_map (l : list T) : dropped (map (fun v => EDrop v) l) = l.
  Proof. unfold dropped. induction l; cbn; congruence. Qed.
  Lemma allocated_map (l : list T) : allocated (map (fun v => EDrop v) l) = [].
  Proof. induction l; cbn; auto. Qed.
  Lemma freed_map (l : list T) : freed (map (fun v => EDrop v) l) = [].
  Proof. induction l; cbn; auto. Qed.

  Lemma drop_ok vs st :
    inv vs st ->
    exists m, drop N size imax (snd st) (fst st) = Ret m /\
      dropped (log m) = dropped (log (snd st)) ++ vs /\
      Permutation (allocated (log m)) (freed (log m)) /\
      allocated (log m) = allocated (log (snd st)) /\
      NoDup (map fst (allocated (log m))) /\
      Forall (fun b => b_live b = false) (blocks m).
  Proof.
    intros Hinv. destruct (inv_ptr _ _ Hinv) as [p [cells [P1 [P2 [P3 P4]]]]].
    destruct Hinv as [H1 [H2 [H3 [pre [Hd H]]]]]. unfold drop. rewrite P1. cbn [bind]. rewrite P2. cbn [bind].
    rewrite H2, (read_cells_ok _ _ P4). cbn [bind].
    destruct st as [[c l d] m]. unfold as_ptr, is_heap in *. cbn [fst snd cap len data] in *. subst l.
    assert (forall lg, @allocated T (lg ++ map (fun v => EDrop v) vs) = allocated lg) as A1.
    { intros. unfold allocated. rewrite flat_map_app. fold (allocated (map (fun v : T => EDrop v) vs)). now rewrite allocated_map, app_nil_r. }
    assert (forall lg, @freed T (lg ++ map (fun v => EDrop v) vs) = freed lg) as A2.
    { intros. unfold freed. rewrite flat_map_app. fold (freed (map (fun v : T => EDrop v) vs)). now rewrite freed_map, app_nil_r. }
    assert (forall lg, @dropped T (lg ++ map (fun v => EDrop v) vs) = dropped lg ++ vs) as A3.
    { intros. unfold dropped. rewrite flat_map_app. fold (dropped (map (fun v : T => EDrop v) vs)). now rewrite dropped_map. }
    destruct d as [cl|id].
    - destruct H as [-> [E1 [E2 [E3 [E4 E5]]]]]. rewrite Nat.ltb_irrefl. eexists. split; [reflexivity|]. cbn [log blocks].
      rewrite A1, A2, A3. rewrite app_nil_r in E4. split; [auto|]. split; [auto|]. split; [auto|]. split; [rewrite E5; apply seq_NoDup|].
      now rewrite E3.
    - destruct H as [G1 [G2 [G3 [-> [cl [E1 [E2 [E3 [E4 E5]]]]]]]]]. rewrite (proj2 (Nat.ltb_lt N c)) in * by lia.
      cbn in P1. injection P1 as <-. unfold layout_array. rewrite (proj2 (Nat.leb_le (c * size) imax)) by lia. cbn [bind].
      unfold dealloc, live_block. cbn [blocks]. rewrite E1, nth_error_mid. cbn [bind b_live b_size]. rewrite Nat.eqb_refl.
      eexists. split; [reflexivity|]. cbn [log blocks b_cells]. rewrite list_set_app.
      assert (forall lg i s, @allocated T (lg ++ [EFree i s]) = allocated lg) as B1.
      { intros. unfold allocated. rewrite flat_map_app. cbn. apply app_nil_r. }
      assert (forall lg i s, @freed T (lg ++ [EFree i s]) = freed lg ++ [(i, s)]) as B2.
      { intros. unfold freed. rewrite flat_map_app. reflexivity. }
      assert (forall lg i s, @dropped T (lg ++ [EFree i s]) = dropped lg) as B3.
      { intros. unfold dropped. rewrite flat_map_app. cbn. apply app_nil_r. }
      rewrite B1, B2, B3, A1, A2, A3. split; [auto|]. split; [auto|]. split; [auto|]. split; [rewrite E5; apply seq_NoDup|].
      apply Forall_app. split; auto.
  Qed.
End Inv.

(** ** Zero-sized types *)
Section Zst.
  Context {T : Type}.
  Lemma zst_spills N imax (vs : list T) st (v : T) :
    inv N 0 imax vs st -> length vs = cap (fst st) -> Nat.max (cap (fst st) * 2) (length vs + 1) <= imax ->
    push N 0 imax (snd st) (fst st) v = UB.
  Proof.
    intros [H1 [H2 [H3 [pre [Hd H]]]]] Hl Hm. destruct st as [[c l d] m]. cbn [fst snd cap len data] in *. subst l.
    destruct d as [cl|id]; [|destruct H as [_ [_ [H _]]]; lia].
    destruct H as [-> [E1 [E2 [E3 [E4 E5]]]]]. unfold push, reserve. cbn [len cap].
    rewrite (proj2 (Nat.leb_gt (length vs + 1) N)) by lia. unfold reserve_exact, assert_cap.
    rewrite (proj2 (Nat.leb_le _ imax) Hm). cbn [bind cap].
    rewrite (proj2 (Nat.leb_gt (Nat.max (N * 2) (length vs + 1)) N)) by lia.
    unfold layout_array. rewrite Nat.mul_0_r. rewrite (proj2 (Nat.leb_le 0 imax)) by lia. cbn [bind].
    unfold is_heap. cbn [cap]. rewrite Nat.ltb_irrefl. reflexivity.
  Qed.

  (** Any call that asks for more than the inline space. *)
  Lemma zst_demand N imax (vs : list T) st c :
    inv N 0 imax vs st -> N < demand (length vs) c -> demand (length vs) c <= imax -> 2 * N <= imax ->
    perform N 0 imax st c = UB.
  Proof.
    intros I D1 D2 D3. pose proof I as [H1 [H2 [H3 [pre [Hd H]]]]]. destruct st as [[k l d] m]. cbn [fst snd cap len data] in *. subst l.
    destruct d as [cl|id]; [|destruct H as [_ [_ [H _]]]; lia]. destruct H as [-> _].
    assert (X : forall n, N < n -> n <= imax -> reserve_exact N 0 imax m (MkShortVec N (length vs) (DStack cl)) n = UB).
    { intros n A B. unfold reserve_exact, assert_cap. rewrite (proj2 (Nat.leb_le _ imax) B). cbn [bind cap].
      rewrite (proj2 (Nat.leb_gt n N)) by lia. unfold layout_array. rewrite Nat.mul_0_r, (proj2 (Nat.leb_le 0 imax)) by lia. cbn [bind].
      unfold is_heap. cbn [cap]. rewrite Nat.ltb_irrefl. reflexivity. }
    assert (Y : forall n, N < n -> n <= imax -> reserve N 0 imax m (MkShortVec N (length vs) (DStack cl)) n = UB).
    { intros n A B. unfold reserve. cbn [cap]. rewrite (proj2 (Nat.leb_gt n N)) by lia. apply X; lia. }
    destruct c; cbn [demand] in *; try lia; unfold perform.
    - unfold push. cbn [len]. rewrite Y by lia. reflexivity.
    - rewrite Y by lia. reflexivity.
    - rewrite X by lia. reflexivity.
  Qed.

  Lemma zst_run N imax cs : 2 * N <= imax -> forall (vs : list T) st,
    inv N 0 imax vs st -> demands_within imax vs cs ->
    (perform_all N 0 imax st cs = UB <-> ~ demands_within N vs cs).
  Proof.
    intros L. induction cs as [|c cs IH]; intros vs st I D; [cbn; split; [discriminate|tauto]|].
    cbn [demands_within perform_all] in *. destruct D as [D1 D2].
    destruct (stack_step vs c) as [[r vs']|] eqn:E; [|contradiction].
    destruct (le_lt_dec (demand (length vs) c) N) as [G|G].
    - assert (inv_cap : cap (fst st) = N).
      { pose proof I as [H1 [H2 [H3 [pre [Hd H]]]]]. destruct (data (fst st)); [now destruct H|destruct H as [_ [_ [H _]]]; lia]. }
      destruct (run_total N 0 imax N [c] vs st I) as [rs [st' [vs2 [R [R1 [R2 _]]]]]].
      + cbn. rewrite E. auto.
      + left. lia.
      + cbn [perform_all] in R. cbn in R1. rewrite E in R1. injection R1 as <- <-.
        destruct (perform N 0 imax st c) as [[r0 st0]| | |]; try discriminate. cbn in R. injection R as -> ->. cbn [bind snd fst].
        specialize (IH _ _ R2 D2).
        destruct (perform_all N 0 imax st' cs) as [[? ?]| | |]; cbn; split; intros Q; try discriminate; try reflexivity.
        * exfalso. assert (A : Ret (l, p) = UB) by (apply IH; tauto). discriminate.
        * exfalso. assert (A : @Panic (list (reply T) * (ShortVec T * mem T)) = UB) by (apply IH; tauto). discriminate.
        * intros [_ Q']. now apply IH.
        * exfalso. assert (A : @OutOfFuel (list (reply T) * (ShortVec T * mem T)) = UB) by (apply IH; tauto). discriminate.
    - rewrite (zst_demand N imax vs st c I G D1 L). cbn. split; [intros _ [Q _]; lia|reflexivity].
  Qed.
End Zst.
