(** * L_Writer: writers that show a vector. *)
From Coq Require Import Lia.
From Verif Require Export M_Utf8 S_Utf8 L_Base L_GenSeq L_GenSeq2.

Local Arguments Nat.ltb : simpl never.
Local Arguments Nat.leb : simpl never.
Local Arguments Nat.eqb : simpl never.

Section Vec2.
  Context {T : Type}.
  Implicit Types (v : vec T) (xs : list T).

  Lemma write_cells v xs rest x v' : cells v = map Some xs ++ rest -> vec_write v (length xs) x = Ret v' ->
    exists rest', cells v' = map Some (xs ++ [x]) ++ rest' /\ vlen v' = vlen v /\ vcap v' = vcap v.
  Proof.
    intros C W. set (v0 := Vec (cells v) (length xs)).
    assert (H0 : holds v0 xs) by (exists rest; auto).
    assert (L : length xs < vcap v0).
    { unfold vec_write in W. destruct (Nat.ltb_spec (length xs) (vcap v)); [auto|discriminate]. }
    destruct (holds_write _ _ x H0 L) as (v1 & W1 & C1 & L1 & rest' & R').
    unfold vec_write in W, W1. unfold vcap, v0 in *. cbn in *.
    rewrite (proj2 (Nat.ltb_lt _ _)) in W, W1 by auto. injection W as <-. injection W1 as <-. cbn in *.
    exists rest'. auto.
  Qed.

  Lemma set_len_cells v n v' : vec_set_len v n = Ret v' -> v' = Vec (cells v) n /\ n <= vcap v.
  Proof.
    unfold vec_set_len. destruct (Nat.leb_spec n (vcap v)); [|discriminate]. intros H0. injection H0 as <-. auto.
  Qed.
End Vec2.

Section Tracks.
  Context {W T E R : Type} (B : bwriter W T E R) (rep : W -> vec T -> Prop) (TR : wtracks B rep).
  Implicit Types (v : vec T) (xs : list T) (w : W).

  Lemma t_read_range w v xs rest : rep w v -> cells v = map Some xs ++ rest -> forall n i l,
    i + n <= length xs -> read_range B w i n = Ret l -> l = firstn n (skipn i xs).
  Proof.
    intros RP C. induction n as [|n IH]; intros i l L H; cbn in H.
    - injection H as <-. reflexivity.
    - apply bind_ret in H as (x & H1 & H). apply bind_ret in H as (l1 & H2 & H). injection H as <-.
      apply (wt_read TR _ _ _ RP) in H1. unfold vec_read in H1. rewrite C in H1.
      rewrite nth_error_app1 in H1 by (rewrite map_length; lia). rewrite nth_error_map in H1.
      destruct (nth_error xs i) as [y|] eqn:N; [|discriminate]. cbn in H1. injection H1 as <-.
      apply IH in H2; [|lia]. rewrite H2. apply nth_error_split in N as (a & b & -> & <-).
      replace (S (length a)) with (length a + 1) by lia. now rewrite <- skipn_add, skipn_length_app.
  Qed.

  Lemma t_slice w v xs l : rep w v -> holds v xs -> as_slice B w = Ret l -> l = xs.
  Proof.
    intros RP (rest & C & L) H. unfold as_slice in H. apply bind_ret in H as (n & H1 & H).
    apply (wt_len TR _ _ RP) in H1. rewrite L in H1. subst n.
    apply (t_read_range _ _ _ _ RP C) in H; [|lia]. cbn in H. now rewrite firstn_all in H.
  Qed.

  Lemma t_write_range w v xs ys : forall rest w', rep w v -> cells v = map Some xs ++ rest ->
    write_range B w (length xs) ys = Ret w' ->
    exists v' rest', rep w' v' /\ cells v' = map Some (xs ++ ys) ++ rest' /\ vcap v' = vcap v.
  Proof.
    revert w v xs. induction ys as [|y ys IH]; intros w v xs rest w' RP C H; cbn in H.
    - injection H as <-. exists v, rest. rewrite app_nil_r. auto.
    - apply bind_ret in H as (w1 & H1 & H). destruct (wt_write TR _ _ _ _ RP H1) as (v1 & V1 & RP1).
      destruct (write_cells _ _ _ _ _ C V1) as (rest1 & C1 & _ & VC).
      destruct (IH w1 v1 (xs ++ [y]) rest1 w' RP1 C1) as (v' & rest' & A1 & A2 & A3).
      + now rewrite app_length, Nat.add_1_r.
      + exists v', rest'. rewrite <- app_assoc in A2. repeat split; auto. congruence.
  Qed.

  Lemma t_set_len w v xs rest w' : rep w v -> cells v = map Some xs ++ rest ->
    bw_set_len B w (length xs) = Ret w' -> exists v', rep w' v' /\ holds v' xs.
  Proof.
    intros RP C H. destruct (wt_set_len TR _ _ _ RP H) as (v' & V' & RP').
    apply set_len_cells in V' as (-> & _). eexists. split; [exact RP'|]. exists rest. auto.
  Qed.

  Lemma t_push w v xs x w' ok : rep w v -> holds v xs -> push_item B w x = Ret (w', ok) ->
    exists v', rep w' v' /\ holds v' (if ok then xs ++ [x] else xs).
  Proof.
    intros RP HD H. unfold push_item in H. apply bind_ret in H as (n & H1 & H).
    apply (wt_len TR _ _ RP) in H1. apply bind_ret in H as (cap & _ & H).
    destruct HD as (rest & C & L). rewrite L in H1. subst n.
    destruct (length xs =? cap).
    - injection H as <- <-. exists v. split; auto. exists rest. auto.
    - apply bind_ret in H as (w1 & H1 & H). apply bind_ret in H as (w2 & H2 & H). injection H as <- <-.
      destruct (wt_write TR _ _ _ _ RP H1) as (v1 & V1 & RP1).
      destruct (write_cells _ _ _ _ _ C V1) as (rest1 & C1 & _).
      apply (t_set_len _ _ (xs ++ [x]) _ _ RP1 C1). now rewrite app_length.
  Qed.

  Lemma firstn_length_firstn (n : nat) (xs : list T) : firstn (length (firstn n xs)) xs = firstn n xs.
  Proof.
    rewrite firstn_length. destruct (Nat.le_ge_cases n (length xs)).
    - now rewrite Nat.min_l.
    - rewrite Nat.min_r by auto. rewrite firstn_all. symmetry. now apply firstn_all2.
  Qed.

  Lemma t_fill w v xs ys w' n : rep w v -> holds v xs -> fill B w ys = Ret (w', n) ->
    exists v', rep w' v' /\ holds v' (xs ++ firstn n ys).
  Proof.
    intros RP (rest & C & L) H. unfold fill in H. apply bind_ret in H as ([m spare] & H1 & H).
    unfold spare_capacity in H1. apply bind_ret in H1 as (m0 & H1 & H2).
    apply bind_ret in H2 as (cap & _ & H2). apply bind_ret in H2 as (sp & _ & H2). injection H2 as <- <-.
    apply (wt_len TR _ _ RP) in H1. rewrite L in H1. subst m0.
    apply bind_ret in H as (w1 & H1 & H). apply bind_ret in H as (w2 & H2 & H). injection H as <- <-.
    destruct (t_write_range _ _ _ _ _ _ RP C H1) as (v1 & rest1 & RP1 & C1 & _).
    rewrite firstn_length_firstn. apply (t_set_len _ _ _ _ _ RP1 C1). now rewrite app_length.
  Qed.

  Lemma t_shrink w v xs n w' : rep w v -> holds v xs -> shrink_to B w n = Ret w' ->
    exists v', rep w' v' /\ holds v' (firstn n xs).
  Proof.
    intros RP (rest & C & L) H. unfold shrink_to in H. apply bind_ret in H as (m & H1 & H).
    apply (wt_len TR _ _ RP) in H1. rewrite L in H1. subst m.
    destruct (Nat.leb_spec n (length xs)) as [LE|]; [|discriminate].
    destruct (Nat.eqb_spec n (length xs)) as [->|N].
    - injection H as <-. exists v. split; auto. rewrite firstn_all. exists rest. auto.
    - apply bind_ret in H as (? & _ & H).
      apply (t_set_len w v (firstn n xs) (map Some (skipn n xs) ++ rest)); auto.
      + now rewrite C, app_assoc, <- map_app, firstn_skipn.
      + rewrite firstn_length, Nat.min_l by auto. exact H.
  Qed.

  Lemma t_overwrite w v xs ys : forall rest w', rep w v -> cells v = map Some xs ++ rest ->
    write_range B w (length xs) ys = Ret w' ->
    exists v' rest', rep w' v' /\ cells v' = map Some (xs ++ ys) ++ rest' /\ vlen v' = vlen v.
  Proof.
    revert w v xs. induction ys as [|y ys IH]; intros w v xs rest w' RP C H; cbn in H.
    - injection H as <-. exists v, rest. rewrite app_nil_r. auto.
    - apply bind_ret in H as (w1 & H1 & H). destruct (wt_write TR _ _ _ _ RP H1) as (v1 & V1 & RP1).
      destruct (write_cells _ _ _ _ _ C V1) as (rest1 & C1 & VL & VC).
      destruct (IH w1 v1 (xs ++ [y]) rest1 w' RP1 C1) as (v' & rest' & A1 & A2 & A3).
      + now rewrite app_length, Nat.add_1_r.
      + exists v', rest'. rewrite <- app_assoc in A2. repeat split; auto. congruence.
  Qed.

  Lemma t_edit w v xs f w' ys : rep w v -> holds v xs -> edit_slice B w f = Ret (w', ys) ->
    exists v', rep w' v' /\ holds v' (stored ys xs) /\ ys = f xs.
  Proof.
    intros RP HD H. unfold edit_slice in H. apply bind_ret in H as (l & H1 & H).
    apply (t_slice _ _ _ _ RP HD) in H1. subst l. apply bind_ret in H as (w1 & H1 & H). injection H as <- <-.
    destruct HD as (rest & C & L).
    destruct (t_overwrite w v [] _ (map Some xs ++ rest) _ RP C H1) as (v' & rest' & RP' & C' & L').
    exists v'. split; [exact RP'|]. split; [|reflexivity]. exists rest'. split; [exact C'|]. rewrite L', L, stored_length. reflexivity.
  Qed.

  (** A run that returns: the writer shows what it accepted. *)
  Lemma t_run {G} (p : wprog T E G) : forall w v tr res g tr' en,
    rep w v -> holds v (accepted tr) -> run_writer B p w tr = Ret (res, g, tr', en) ->
    exists w' v', rep w' v' /\ holds v' (accepted tr')
      /\ (en = EndAdvance /\ bw_advance B w' = Ret res
          \/ en = EndCancel /\ exists e, bw_cancel B w' e = Ret res).
  Proof.
    induction p as [x k IH|xs k IH|n k IH|k IH|k IH|k IH|f k IH|g0|e g0]; intros w v tr res g tr' en RP HD H;
      cbn [run_writer] in H.
    - apply bind_ret in H as ([w1 ok] & P & H). destruct (t_push _ _ _ _ _ _ RP HD P) as (v1 & RP1 & HD1).
      eapply IH; [exact RP1| |exact H]. rewrite accepted_snoc. destruct ok; exact HD1.
    - apply bind_ret in H as ([w1 m] & P & H). destruct (t_fill _ _ _ _ _ _ RP HD P) as (v1 & RP1 & HD1).
      eapply IH; [exact RP1| |exact H]. rewrite accepted_snoc. exact HD1.
    - apply bind_ret in H as (w1 & P & H). destruct (t_shrink _ _ _ _ _ RP HD P) as (v1 & RP1 & HD1).
      eapply IH; [exact RP1| |exact H]. rewrite accepted_snoc. exact HD1.
    - apply bind_ret in H as (m & _ & H). eapply IH; eauto.
    - apply bind_ret in H as (m & _ & H). eapply IH; eauto.
    - apply bind_ret in H as (m & _ & H). eapply IH; eauto.
    - apply bind_ret in H as ([w1 ys] & P & H). destruct (t_edit _ _ _ _ _ _ RP HD P) as (v1 & RP1 & HD1 & _).
      eapply IH; [exact RP1| |exact H]. rewrite accepted_snoc. exact HD1.
    - apply bind_ret in H as (m & P & H). injection H as <- <- <- <-. exists w, v. auto.
    - apply bind_ret in H as (m & P & H). injection H as <- <- <- <-. exists w, v. eauto 10.
  Qed.
End Tracks.
