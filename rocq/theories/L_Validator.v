(** * L_Validator: what one [next] of a [Utf8Validator] does. *)
From Coq Require Import Lia.
From Verif Require Export L_Utf8 L_Writer.

Local Arguments Nat.ltb : simpl never.
Local Arguments Nat.leb : simpl never.
Local Arguments Nat.eqb : simpl never.

Lemma holds_shift {T} (pre xs : list T) v v' : cells v = map Some pre ++ cells v' ->
  vlen v = length pre + vlen v' -> holds v' xs -> holds v (pre ++ xs).
Proof.
  intros C L (rest & C' & L'). exists rest. rewrite C, C', L, L', map_app, app_length, <- app_assoc. auto.
Qed.

Lemma list_set_app {T} (a b : list T) i x : list_set (a ++ b) (length a + i) x = a ++ list_set b i x.
Proof. induction a; cbn; congruence. Qed.

(** [held]: the bytes the validator keeps. *)
Definition vinv {G} (v : validator G) (held : list byte) : Prop :=
  firstn (buffered v) (rest v) = held /\ length held = buffered v /\ buffered v <= 3
  /\ valid_up_to held = 0.

Lemma vinv_new {G} (g : G) : vinv (validator_new g) [].
Proof. repeat split; cbn; lia. Qed.

Section Validator.
  Context {C W E R : Type} (K : control C W byte (uerror E) R).
  Context (rep : W -> vec byte -> Prop) (TW : wtracks (ct_writer K) rep).

  (** The writer handed to the inner source shows the part after the held-back
      bytes. *)
  Definition srep (pre : list byte) (w : uwriter W) (v' : vec byte) : Prop :=
    uw_buffered w = length pre /\ exists v, rep (uw_req w) v
      /\ cells v = map Some pre ++ cells v' /\ vlen v = length pre + vlen v'.

  Lemma srep_tracks pre : wtracks (uwriter_ops K) (srep pre).
  Proof.
    split.
    - intros w v' n (BU & v & RP & CE & LE) H. cbn in H. apply bind_ret in H as (m & H1 & H).
      apply (wt_len TW _ _ RP) in H1. unfold usub in H. rewrite BU in H.
      destruct (Nat.leb_spec (length pre) m); [|discriminate]. injection H as <-. lia.
    - intros w v' i x (BU & v & RP & CE & LE) H. cbn in H. apply (wt_read TW _ _ _ RP) in H.
      unfold vec_read in *. rewrite BU, CE, nth_error_app2 in H by (rewrite map_length; lia).
      rewrite map_length in H. replace (length pre + i - length pre) with i in H by lia. exact H.
    - intros w v' i x w' (BU & v & RP & CE & LE) H. cbn in H. apply bind_ret in H as (q & H1 & H).
      injection H as <-. destruct (wt_write TW _ _ _ _ RP H1) as (v1 & V1 & RP1).
      unfold vec_write in *. rewrite BU in V1.
      destruct (Nat.ltb_spec (length pre + i) (vcap v)) as [L|]; [|discriminate]. injection V1 as <-.
      unfold vcap in *. rewrite CE, app_length, map_length in L.
      rewrite (proj2 (Nat.ltb_lt _ _)) by lia. eexists. split; [reflexivity|].
      split; [exact BU|]. cbn. eexists. split; [exact RP1|]. cbn. split; auto.
      rewrite CE. rewrite <- (map_length Some pre) at 1. apply list_set_app.
    - intros w v' n w' (BU & v & RP & CE & LE) H. cbn in H. apply bind_ret in H as (q & H1 & H).
      injection H as <-. destruct (wt_set_len TW _ _ _ RP H1) as (v1 & V1 & RP1).
      apply set_len_cells in V1 as (-> & L). unfold vcap in L. rewrite CE, app_length, map_length in L.
      unfold vec_set_len, vcap. rewrite (proj2 (Nat.leb_le _ _)) by lia. eexists. split; [reflexivity|].
      split; [exact BU|]. cbn. eexists. split; [exact RP1|]. cbn. split; auto. lia.
  Qed.

  Context (c : C) (RQ : forall n w, ct_request K c n = Ret w -> exists cells, rep w (Vec cells 0)).

  (** The writer it hands out. *)
  Lemma u_request_inv {G} (v : validator G) held n w : vinv v held ->
    u_request K (buffered v) (rest v) c n = Ret w -> exists v', srep held w v' /\ holds v' [].
  Proof.
    intros (F & L & L3 & Z) H. unfold u_request in H. apply bind_ret in H as (q & H1 & H).
    destruct (RQ _ _ H1) as (cl & RP).
    destruct (buffered v <=? length (rest v)); [|discriminate].
    apply bind_ret in H as (q1 & H2 & H). apply bind_ret in H as (q2 & H3 & H). injection H as <-.
    rewrite F in H2. change 0 with (length (@nil byte)) in H2.
    destruct (t_write_range _ _ TW _ _ [] _ cl _ RP eq_refl H2) as (v1 & rest1 & RP1 & C1 & _).
    rewrite <- L in H3. destruct (wt_set_len TW _ _ _ RP1 H3) as (v2 & V2 & RP2).
    apply set_len_cells in V2 as (-> & _). cbn in C1.
    exists (Vec rest1 0). split; [|exists rest1; auto].
    split; [cbn; congruence|]. eexists. split; [exact RP2|]. cbn. split; [exact C1|lia].
  Qed.

  (** What the outer control is told. *)
  Lemma next_told {G} (src : source byte E G) v held r v' tr en : vinv v held ->
    validator_next K src c v = Ret (r, v', tr, en) ->
    match en with
    | EndAdvance =>
        let l := held ++ accepted tr in
        3 < length (skipn (valid_up_to l) l) /\ vinv v' held
          /\ (exists q vq xs, rep q vq /\ holds vq xs /\ bw_cancel (ct_writer K) q InvalidSequence = Ret r)
        \/ length (skipn (valid_up_to l) l) <= 3 /\ vinv v' (skipn (valid_up_to l) l)
          /\ (exists q vq, rep q vq /\ holds vq (firstn (valid_up_to l) l) /\ bw_advance (ct_writer K) q = Ret r)
    | EndFinish => ct_finish K c = Ret r /\ vinv v' held /\ tr = []
    | EndCancel => vinv v' held /\ exists e q vq xs, rep q vq /\ holds vq xs /\ bw_cancel (ct_writer K) q (Inner e) = Ret r
    | EndReject => vinv v' held /\ exists e, ct_cancel K c (Inner e) = Ret r
    end.
  Proof.
    intros I H. unfold validator_next in H. apply bind_ret in H as ([[[res g] tr0] en0] & H1 & H).
    unfold run_source in H1. destruct (src (vsource v)) as [n p|g0|e g0].
    - apply bind_ret in H1 as (w & RQ' & RW). cbn in RQ', RW.
      destruct (u_request_inv _ _ _ _ I RQ') as (v1 & SR & HD).
      destruct (t_run _ _ (srep_tracks held) p _ _ [] _ _ _ _ SR HD RW) as (w' & v2 & (BU & vr & RP & CE & LE) & HD' & EN).
      pose proof (holds_shift _ _ _ _ CE LE HD') as HS.
      destruct EN as [(-> & AD)|(-> & e & CA)].
      + cbn in AD. unfold u_advance in AD. apply bind_ret in AD as (buf & SL & AD).
        apply (t_slice _ _ TW _ _ _ _ RP HS) in SL. subst buf.
        set (l := held ++ accepted tr0) in *.
        destruct (Nat.ltb_spec 3 (length (skipn (valid_up_to l) l))) as [L3|L3].
        * apply bind_ret in AD as (rr & CN & AD). injection AD as <-. injection H as <- <- <- <-.
          left. fold l. split; [auto|]. split; [exact I|]. eauto 10.
        * apply bind_ret in AD as (q & SH & AD). apply bind_ret in AD as (rr & ADV & AD).
          injection AD as <-. injection H as <- <- <- <-. right. fold l. split; [auto|].
          destruct (t_shrink _ _ TW _ _ _ _ _ RP HS SH) as (v3 & RP3 & HS3).
          split; [|eauto].
          destruct (v_split l) as (t & r0 & _ & _ & Z & _ & _ & SK). rewrite SK in *.
          repeat split; cbn [buffered rest]; auto.
          rewrite firstn_app, firstn_all, Nat.sub_diag. cbn. now rewrite app_nil_r.
      + cbn in CA. apply bind_ret in CA as (rr & CN & CA). injection CA as <-. injection H as <- <- <- <-.
        split; [exact I|]. eauto 10.
    - cbn in H1. apply bind_ret in H1 as (r1 & H1 & H2). apply bind_ret in H1 as (r2 & FN & H1).
      injection H1 as <-. injection H2 as <- <- <- <-. injection H as <- <- <- <-.
      split; [exact FN|]. split; [exact I|reflexivity].
    - cbn in H1. apply bind_ret in H1 as (r1 & H1 & H2). apply bind_ret in H1 as (r2 & CN & H1).
      injection H1 as <-. injection H2 as <- <- <- <-. injection H as <- <- <- <-.
      split; [exact I|]. eauto.
  Qed.
End Validator.

Section Next.
  Context {C W E R : Type} (K : control C W byte (uerror E) R).
  Context (rep : C -> W -> vec byte -> Prop) (view : C -> R -> outcome byte (uerror E)).
  Context (TR : tracks K rep view).

  Lemma next_inv {G} (src : source byte E G) c v held r v' tr en : vinv v held ->
    validator_next K src c v = Ret (r, v', tr, en) ->
    match en with
    | EndAdvance =>
        let l := held ++ accepted tr in
        3 < length (skipn (valid_up_to l) l) /\ view c r = Rejected InvalidSequence /\ vinv v' held
        \/ length (skipn (valid_up_to l) l) <= 3 /\ view c r = Delivered (firstn (valid_up_to l) l)
           /\ vinv v' (skipn (valid_up_to l) l)
    | EndFinish => view c r = Ended /\ vinv v' held /\ tr = []
    | EndCancel | EndReject => (exists e, view c r = Rejected (Inner e)) /\ vinv v' held
    end.
  Proof.
    intros I H.
    pose proof (next_told K (rep c) (tk_writer TR c) c (tk_request TR c) src _ _ _ _ _ _ I H) as N.
    destruct en.
    - destruct N as [(L & I' & q & vq & xs & RP & _ & CN)|(L & I' & q & vq & RP & HD & AD)].
      + left. split; [exact L|]. split; [exact (tk_wcancel TR _ _ _ _ RP CN)|exact I'].
      + right. split; [exact L|]. split; [exact (tk_advance TR _ _ RP HD AD)|exact I'].
    - destruct N as (I' & e & q & vq & xs & RP & _ & CN). split; [|exact I']. exists e. exact (tk_wcancel TR _ _ _ _ RP CN).
    - destruct N as (FN & I' & T0). split; [exact (tk_finish TR _ FN)|auto].
    - destruct N as (I' & e & CN). split; [|exact I']. exists e. exact (tk_cancel TR _ _ CN).
  Qed.
End Next.

(** ** Histories *)
Section History.
  Context {C W E R G : Type} (K : control C W byte (uerror E) R).
  Context (rep : C -> W -> vec byte -> Prop) (view : C -> R -> outcome byte (uerror E)).
  Context (TR : tracks K rep view).
  Context (src : source byte E G).

  Lemma firstn_utf8 l : utf8 (firstn (valid_up_to l) l).
  Proof. destruct (v_split l) as (t & r & F & _ & _ & _ & -> & _). exists t. auto. Qed.

  Lemma next_all_utf8 cs : forall v held rs v', vinv v held -> next_all K src cs v = Ret (rs, v') ->
    utf8 (concat (map (passed_on view) rs)).
  Proof.
    induction cs as [|c cs IH]; intros v held rs v' I H; cbn in H.
    - injection H as <- <-. apply utf8_nil.
    - apply bind_ret in H as ([[[r v1] tr] en] & H1 & H). apply bind_ret in H as ([rs2 v2] & H2 & H).
      injection H as <- <-. pose proof (next_inv K rep view TR src _ _ _ _ _ _ _ I H1) as N.
      assert (X : (exists h1, vinv v1 h1) /\ utf8 (passed_on view (c, r, tr, en))).
      { unfold passed_on. destruct en.
        - destruct N as [(_ & -> & I1)|(_ & -> & I1)]; split; eauto using utf8_nil, firstn_utf8.
        - destruct N as ((e & ->) & I1). split; eauto using utf8_nil.
        - destruct N as (-> & I1 & _). split; eauto using utf8_nil.
        - destruct N as ((e & ->) & I1). split; eauto using utf8_nil. }
      destruct X as ((h1 & I1) & U). cbn. apply utf8_app; [exact U|]. eapply IH; eauto.
  Qed.

  Definition no_invalid (x : nrecord (C := C) (R := R)) : Prop := ~ reports view x InvalidSequence.

  Lemma next_all_conserved cs : forall v held rs v', vinv v held -> next_all K src cs v = Ret (rs, v') ->
    Forall no_invalid rs ->
    exists held', vinv v' held'
      /\ held ++ concat (map produced rs) = concat (map (passed_on view) rs) ++ held'.
  Proof.
    induction cs as [|c cs IH]; intros v held rs v' I H F; cbn in H.
    - injection H as <- <-. exists held. cbn. rewrite app_nil_r. auto.
    - apply bind_ret in H as ([[[r v1] tr] en] & H1 & H). apply bind_ret in H as ([rs2 v2] & H2 & H).
      injection H as <- <-. pose proof (next_inv K rep view TR src _ _ _ _ _ _ _ I H1) as N.
      inversion F as [|? ? NI F2]; subst. unfold no_invalid, reports in NI.
      destruct en.
      + destruct N as [(_ & V & _)|(_ & V & I1)]; [contradiction|].
        destruct (IH _ _ _ _ I1 H2 F2) as (h' & I' & EQ). exists h'. split; [auto|].
        cbn [map concat]. unfold passed_on at 1, produced at 1. rewrite V.
        rewrite <- app_assoc, <- EQ, !app_assoc, firstn_skipn. reflexivity.
      + destruct N as ((e & V) & I1). destruct (IH _ _ _ _ I1 H2 F2) as (h' & I' & EQ).
        exists h'. split; [auto|]. cbn [map concat]. unfold passed_on at 1, produced at 1. rewrite V. exact EQ.
      + destruct N as (V & I1 & _). destruct (IH _ _ _ _ I1 H2 F2) as (h' & I' & EQ).
        exists h'. split; [auto|]. cbn [map concat]. unfold passed_on at 1, produced at 1. rewrite V. exact EQ.
      + destruct N as ((e & V) & I1). destruct (IH _ _ _ _ I1 H2 F2) as (h' & I' & EQ).
        exists h'. split; [auto|]. cbn [map concat]. unfold passed_on at 1, produced at 1. rewrite V. exact EQ.
  Qed.

  Lemma next_all_app cs1 : forall cs2 v rs v', next_all K src (cs1 ++ cs2) v = Ret (rs, v') ->
    exists rs1 v1 rs2, next_all K src cs1 v = Ret (rs1, v1) /\ next_all K src cs2 v1 = Ret (rs2, v')
      /\ rs = rs1 ++ rs2 /\ length rs1 = length cs1.
  Proof.
    induction cs1 as [|c cs1 IH]; intros cs2 v rs v' H; cbn in H.
    - exists [], v, rs. auto.
    - apply bind_ret in H as ([[[r v1] tr] en] & H1 & H). apply bind_ret in H as ([rs2 v2] & H2 & H).
      injection H as <- <-. destruct (IH _ _ _ _ H2) as (rsa & va & rsb & A1 & A2 & -> & A3).
      exists ((c, r, tr, en) :: rsa), va, rsb. cbn. rewrite H1. cbn. rewrite A1. cbn. auto.
  Qed.

  Lemma next_all_length cs : forall v rs v', next_all K src cs v = Ret (rs, v') -> length rs = length cs.
  Proof.
    intros v rs v' H. rewrite <- (app_nil_r cs) in H. destruct (next_all_app _ _ _ _ _ H) as (r1 & v1 & r2 & _ & H2 & -> & L).
    cbn in H2. injection H2 as <- _. now rewrite app_nil_r.
  Qed.

  (** An invalid sequence is reported only for bytes that begin no text. *)
  Lemma next_invalid v held c r v' tr en z : vinv v held -> validator_next K src c v = Ret (r, v', tr, en) ->
    view c r = Rejected InvalidSequence ->
    en = EndAdvance /\ ~ utf8 ((held ++ accepted tr) ++ z).
  Proof.
    intros I H V. pose proof (next_inv K rep view TR src _ _ _ _ _ _ _ I H) as N. destruct en.
    - split; [auto|]. destruct N as [(L & _ & _)|(_ & V' & _)]; [|congruence]. intros U.
      destruct (v_split (held ++ accepted tr)) as (t & q & F & EQ & Z & _ & _ & SK).
      rewrite SK in L. rewrite EQ, <- app_assoc in U. apply utf8_rest in U; [|exists t; auto].
      pose proof (v_stuck _ _ Z U). lia.
    - destruct N as ((e & V') & _). congruence.
    - destruct N as (V' & _). congruence.
    - destruct N as ((e & V') & _). congruence.
  Qed.
  (** No invalid sequence is reported while the bytes begin a text. *)
  Lemma next_all_accepts cs : forall v held rs v' z, vinv v held -> next_all K src cs v = Ret (rs, v') ->
    utf8 (held ++ concat (map produced rs) ++ z) -> Forall no_invalid rs.
  Proof.
    induction cs as [|c cs IH]; intros v held rs v' z I H U; cbn in H.
    - injection H as <- <-. constructor.
    - apply bind_ret in H as ([[[r v1] tr] en] & H1 & H). apply bind_ret in H as ([rs2 v2] & H2 & H).
      injection H as <- <-. pose proof (next_inv K rep view TR src _ _ _ _ _ _ _ I H1) as N.
      assert (NI : no_invalid (c, r, tr, en)).
      { unfold no_invalid, reports. intros V.
        destruct (next_invalid _ _ _ _ _ _ _ (concat (map produced rs2) ++ z) I H1 V) as (-> & NU).
        apply NU. cbn in U. rewrite <- !app_assoc in *. exact U. }
      constructor; [exact NI|]. unfold no_invalid, reports in NI. cbn in U.
      destruct en.
      + destruct N as [(_ & V & _)|(_ & V & I1)]; [contradiction|].
        eapply (IH _ _ _ _ z I1 H2).
        rewrite <- app_assoc, app_assoc in U. rewrite <- (firstn_skipn (valid_up_to (held ++ accepted tr)) (held ++ accepted tr)) in U.
        rewrite <- app_assoc in U. apply utf8_rest in U; [exact U|apply firstn_utf8].
      + destruct N as (_ & I1). eapply (IH _ _ _ _ z I1 H2). exact U.
      + destruct N as (_ & I1 & _). eapply (IH _ _ _ _ z I1 H2). exact U.
      + destruct N as (_ & I1). eapply (IH _ _ _ _ z I1 H2). exact U.
  Qed.
End History.

(** ** Writers that do not fail *)
Record wconforms {W T E R} (B : bwriter W T E R) (rep : W -> vec T -> Prop) : Prop := {
  wc_tracks : wtracks B rep;
  wc_capacity : forall w v, rep w v -> bw_capacity B w = Ret (vcap v);
  wc_len : forall w v, rep w v -> bw_len B w = Ret (vlen v);
  wc_read : forall w v i x, rep w v -> vec_read v i = Ret x -> bw_read B w i = Ret x;
  wc_write : forall w v i x v', rep w v -> vec_write v i x = Ret v' -> exists w', bw_write B w i x = Ret w' /\ rep w' v';
  wc_set_len : forall w v n v', rep w v -> vec_set_len v n = Ret v' -> exists w', bw_set_len B w n = Ret w' /\ rep w' v'
}.

Section Conforms.
  Context {W T E R : Type} (B : bwriter W T E R) (rep : W -> vec T -> Prop) (CF : wconforms B rep).

  Lemma c_read w v xs rest : rep w v -> cells v = map Some xs ++ rest -> forall n i, i + n <= length xs ->
    exists l, read_range B w i n = Ret l.
  Proof.
    intros RP C. induction n as [|n IH]; intros i L; cbn; eauto.
    destruct (nth_error xs i) as [x|] eqn:N; [|apply nth_error_None in N; lia].
    rewrite (wc_read _ _ CF w v i x RP).
    - cbn. destruct (IH (S i)) as (l & ->); [lia|]. cbn. eauto.
    - unfold vec_read. rewrite C, nth_error_app1 by (rewrite map_length; lia). now rewrite nth_error_map, N.
  Qed.

  Lemma c_slice w v xs : rep w v -> holds v xs -> as_slice B w = Ret xs.
  Proof.
    intros RP HD. pose proof HD as (rest & C & L). unfold as_slice. rewrite (wc_len _ _ CF _ _ RP). cbn [bind].
    destruct (c_read _ _ _ _ RP C (vlen v) 0) as (l & E1); [lia|]. rewrite E1. f_equal.
    eapply (t_slice B rep (wc_tracks _ _ CF)); eauto. unfold as_slice. rewrite (wc_len _ _ CF _ _ RP). exact E1.
  Qed.

  Lemma c_shrink w v xs n : rep w v -> holds v xs -> n <= length xs -> exists w', shrink_to B w n = Ret w'.
  Proof.
    intros RP (rest & C & L) LE. unfold shrink_to. rewrite (wc_len _ _ CF _ _ RP). cbn [bind]. rewrite L.
    rewrite (proj2 (Nat.leb_le _ _)) by auto. destruct (Nat.eqb_spec n (length xs)); [eauto|].
    destruct (c_read _ _ _ _ RP C (length xs - n) n) as (l & ->); [lia|]. cbn [bind].
    destruct (wc_set_len _ _ CF w v n (Vec (cells v) n) RP) as (w' & -> & _); eauto.
    unfold vec_set_len, vcap. rewrite C, app_length, map_length, (proj2 (Nat.leb_le _ _)) by lia. reflexivity.
  Qed.

  Lemma c_write_range ys : forall w v xs rest, rep w v -> cells v = map Some xs ++ rest -> length ys <= length rest ->
    exists w' v' rest', write_range B w (length xs) ys = Ret w' /\ rep w' v' /\ cells v' = map Some (xs ++ ys) ++ rest'
      /\ vcap v' = vcap v.
  Proof.
    induction ys as [|y ys IH]; intros w v xs rest RP C L; cbn in *.
    - exists w, v, rest. rewrite app_nil_r. auto.
    - assert (V : exists v1, vec_write v (length xs) y = Ret v1).
      { unfold vec_write, vcap. rewrite C, app_length, map_length, (proj2 (Nat.ltb_lt _ _)) by lia. eauto. }
      destruct V as (v1 & V1). destruct (wc_write _ _ CF _ _ _ _ _ RP V1) as (w1 & E1 & RP1). rewrite E1. cbn.
      destruct (write_cells _ _ _ _ _ C V1) as (rest1 & C1 & _ & VC).
      assert (L1 : length ys <= length rest1).
      { unfold vcap in VC. rewrite C, C1, !app_length, !map_length, app_length in VC. cbn in VC. lia. }
      destruct (IH w1 v1 (xs ++ [y]) rest1 RP1 C1 L1) as (w' & v' & rest' & A1 & A2 & A3 & A4).
      rewrite app_length, Nat.add_1_r in A1. rewrite A1. exists w', v', rest'. rewrite <- app_assoc in A3.
      repeat split; auto. congruence.
  Qed.

  Lemma c_push w v xs x : rep w v -> holds v xs -> length xs < vcap v ->
    exists w' v', push_item B w x = Ret (w', true) /\ rep w' v' /\ holds v' (xs ++ [x]) /\ vcap v' = vcap v.
  Proof.
    intros RP (rest & C & L) LT. unfold push_item. rewrite (wc_len _ _ CF _ _ RP). cbn [bind].
    rewrite (wc_capacity _ _ CF _ _ RP). cbn [bind]. rewrite L, (proj2 (Nat.eqb_neq _ _)) by lia.
    destruct (c_write_range [x] w v xs rest RP C) as (w1 & v1 & rest1 & E1 & RP1 & C1 & VC).
    { unfold vcap in LT. rewrite C, app_length, map_length in LT. cbn. lia. }
    cbn in E1. destruct (bw_write B w (length xs) x) as [w1'| | |]; try discriminate. cbn in E1. injection E1 as ->.
    cbn [bind].
    destruct (wc_set_len _ _ CF w1 v1 (length xs + 1) (Vec (cells v1) (length xs + 1)) RP1) as (w2 & E2 & RP2).
    { unfold vec_set_len. rewrite (proj2 (Nat.leb_le _ _)) by lia. reflexivity. }
    rewrite E2. cbn [bind]. eexists _, _. split; [reflexivity|]. split; [exact RP2|]. split; [|exact VC].
    exists rest1. cbn. rewrite app_length. auto.
  Qed.

  Lemma c_push_all {G} seg (g : G) : forall w v xs tr, rep w v -> holds v xs -> length xs + length seg <= vcap v ->
    exists w' v', rep w' v' /\ holds v' (xs ++ seg) /\
      run_writer B (push_all seg (WAdvance g)) w tr
      = (r <- bw_advance B w' ;; Ret (r, g, tr ++ map PushOk seg, EndAdvance)).
  Proof.
    induction seg as [|x seg IH]; intros w v xs tr RP HD L; cbn in *.
    - exists w, v. rewrite !app_nil_r. auto.
    - destruct (c_push w v xs x RP HD) as (w1 & v1 & E1 & RP1 & HD1 & VC); [lia|]. rewrite E1. cbn.
      destruct (IH w1 v1 (xs ++ [x]) (tr ++ [PushOk x]) RP1 HD1) as (w' & v' & A1 & A2 & A3).
      { rewrite app_length, VC. cbn. lia. }
      exists w', v'. rewrite A3, <- !app_assoc. rewrite <- app_assoc in A2. auto.
  Qed.
End Conforms.

Lemma accepted_pushes {T} (xs : list T) : accepted (map PushOk xs) = xs.
Proof.
  induction xs as [|x xs IH] using rev_ind; [reflexivity|].
  rewrite map_app. cbn [map]. rewrite accepted_snoc, IH. reflexivity.
Qed.

Section Total.
  Context {C W E R : Type} (K : control C W byte (uerror E) R).
  Context (rep : C -> W -> vec byte -> Prop) (view : C -> R -> outcome byte (uerror E)).
  Context (CF : conforming K rep view).

  Lemma cf_writer c : wconforms (ct_writer K) (rep c).
  Proof.
    split.
    - apply (tk_writer (cf_tracks CF)).
    - apply (cf_capacity CF).
    - apply (cf_len CF).
    - intros. eapply (cf_read CF); eauto.
    - intros. eapply (cf_write CF); eauto.
    - intros. eapply (cf_set_len CF); eauto.
  Qed.

  Lemma srep_conforms c pre : wconforms (uwriter_ops K) (srep (rep c) pre).
  Proof.
    pose proof (cf_writer c) as CW. split.
    - apply (srep_tracks K (rep c) (tk_writer (cf_tracks CF) c)).
    - intros w v' (BU & v & RP & CE & LE). cbn. rewrite (wc_capacity _ _ CW _ _ RP). cbn.
      unfold usub, vcap. rewrite BU, CE, app_length, map_length, (proj2 (Nat.leb_le _ _)) by lia. f_equal. lia.
    - intros w v' (BU & v & RP & CE & LE). cbn. rewrite (wc_len _ _ CW _ _ RP). cbn.
      unfold usub. rewrite BU, LE, (proj2 (Nat.leb_le _ _)) by lia. f_equal. lia.
    - intros w v' i x (BU & v & RP & CE & LE) H. cbn. apply (wc_read _ _ CW _ _ _ _ RP).
      unfold vec_read in *. rewrite BU, CE, nth_error_app2 by (rewrite map_length; lia).
      rewrite map_length. now replace (length pre + i - length pre) with i by lia.
    - intros w v' i x v1' (BU & v & RP & CE & LE) H. unfold vec_write in H.
      destruct (Nat.ltb_spec i (vcap v')) as [L|]; [|discriminate]. injection H as <-.
      destruct (wc_write _ _ CW (uw_req w) v (length pre + i) x (Vec (list_set (cells v) (length pre + i) (Some x)) (vlen v)) RP) as (w1 & E1 & RP1).
      { unfold vec_write, vcap in *. rewrite CE, app_length, map_length, (proj2 (Nat.ltb_lt _ _)) by lia. reflexivity. }
      cbn. rewrite BU, E1. cbn. eexists. split; [reflexivity|]. split; [reflexivity|]. cbn. eexists.
      split; [exact RP1|]. cbn. split; auto. rewrite CE. rewrite <- (map_length Some pre) at 1. apply list_set_app.
    - intros w v' n v1' (BU & v & RP & CE & LE) H. apply set_len_cells in H as (-> & L).
      destruct (wc_set_len _ _ CW (uw_req w) v (n + length pre) (Vec (cells v) (n + length pre)) RP) as (w1 & E1 & RP1).
      { unfold vec_set_len, vcap in *. rewrite CE, app_length, map_length, (proj2 (Nat.leb_le _ _)) by lia. reflexivity. }
      cbn. rewrite BU, E1. cbn. eexists. split; [reflexivity|]. split; [reflexivity|]. cbn. eexists.
      split; [exact RP1|]. cbn. split; auto. lia.
  Qed.

  Lemma u_request_ok {G} (v : validator G) held c n : vinv v held ->
    exists w v', u_request K (buffered v) (rest v) c n = Ret w /\ srep (rep c) held w v' /\ holds v' [] /\ n <= vcap v'.
  Proof.
    intros (F & L & L3 & Z). unfold u_request.
    destruct (cf_request CF c (buffered v + n)) as (q & cl & E1 & RP & LC). rewrite E1. cbn [bind].
    assert (LR : buffered v <= length (rest v)).
    { rewrite <- F, firstn_length in L. lia. }
    rewrite (proj2 (Nat.leb_le _ _)) by auto. rewrite F.
    pose proof (cf_writer c) as CW.
    destruct (c_write_range _ _ CW held q _ [] cl RP eq_refl) as (q1 & v1 & rest1 & E2 & RP1 & C1 & VC); [lia|].
    change (length (@nil byte)) with 0 in E2. rewrite E2. cbn [bind]. cbn in C1.
    assert (VC' : vcap v1 = length cl) by (rewrite VC; reflexivity). unfold vcap in VC'. rewrite C1, app_length, map_length in VC'.
    destruct (wc_set_len _ _ CW q1 v1 (buffered v) (Vec (cells v1) (buffered v)) RP1) as (q2 & E3 & RP2).
    { unfold vec_set_len, vcap. rewrite C1, app_length, map_length, (proj2 (Nat.leb_le _ _)) by lia. reflexivity. }
    rewrite E3. cbn [bind]. eexists _, (Vec rest1 0). split; [reflexivity|]. split; [|split].
    - split; [cbn; auto|]. eexists. split; [exact RP2|]. cbn. split; [exact C1|lia].
    - exists rest1. auto.
    - unfold vcap. cbn. lia.
  Qed.

  Lemma u_advance_ok c held w v xs : srep (rep c) held w v -> holds v xs -> exists r, u_advance K w = Ret r.
  Proof.
    intros (BU & vr & RP & CE & LE) HD. pose proof (holds_shift _ _ _ _ CE LE HD) as HS.
    pose proof (cf_writer c) as CW. unfold u_advance. rewrite (c_slice _ _ CW _ _ _ RP HS). cbn [bind].
    set (l := held ++ xs) in *. destruct (3 <? length (skipn (valid_up_to l) l)).
    - destruct (cf_wcancel CF c _ _ InvalidSequence RP) as (r & ->). cbn. eauto.
    - assert (LV : valid_up_to l <= length l).
      { destruct (v_split l) as (t & q & _ & EQ & _ & -> & _). rewrite EQ, app_length. lia. }
      destruct (c_shrink _ _ CW _ _ _ _ RP HS LV) as (q & E1). rewrite E1. cbn [bind].
      destruct (t_shrink _ _ (wc_tracks _ _ CW) _ _ _ _ _ RP HS E1) as (v3 & RP3 & _).
      destruct (cf_advance CF c _ _ RP3) as (r & ->). cbn. eauto.
  Qed.

End Total.

Section Chunks.
  Context {C W R : Type} (K : control C W byte (uerror Never) R).
  Context (rep : C -> W -> vec byte -> Prop) (view : C -> R -> outcome byte (uerror Never)).
  Context (CF : conforming K rep view).

  (** A chunk of an iterator source. *)
  Lemma next_chunk c (v : validator (list (list byte))) held seg more : vinv v held -> vsource v = seg :: more ->
    exists r v', validator_next K iterator_source c v = Ret (r, v', map PushOk seg, EndAdvance) /\ vsource v' = more.
  Proof.
    intros I S. unfold validator_next. rewrite S. cbn [iterator_source run_source].
    destruct (u_request_ok K rep view CF v held c (length seg) I) as (w & v0 & E1 & SR & HD & L).
    cbn [ct_request ucontrol ct_writer]. rewrite E1. cbn [bind].
    destruct (c_push_all _ _ (srep_conforms K rep view CF c held) seg more w v0 [] [] SR HD) as (w' & v' & SR' & HD' & RUN).
    { cbn. exact L. }
    rewrite RUN. cbn [bw_advance uwriter_ops app].
    destruct (u_advance_ok K rep view CF c held w' v' _ SR' HD') as (r & ->). cbn [bind].
    destruct r; eexists _, _; split; reflexivity.
  Qed.

  Lemma next_end c (v : validator (list (list byte))) : vsource v = [] ->
    exists r, validator_next K iterator_source c v = Ret (r, v, [], EndFinish).
  Proof.
    intros S. unfold validator_next. rewrite S. cbn [iterator_source run_source ct_finish ucontrol].
    destruct (cf_finish CF c) as (r & ->). cbn. exists r. destruct v; cbn in *. now subst.
  Qed.

  Lemma next_chunks chunks : forall cs cend v held, length cs = length chunks -> vinv v held -> vsource v = chunks ->
    exists rs r v', next_all K iterator_source (cs ++ [cend]) v = Ret (rs ++ [(cend, r, [], EndFinish)], v')
      /\ concat (map produced rs) = concat chunks /\ view cend r = Ended.
  Proof.
    induction chunks as [|seg chunks IH]; intros cs cend v held LC I S.
    - destruct cs; [|discriminate]. cbn. destruct (next_end cend v S) as (r & E1). rewrite E1. cbn.
      exists [], r, v. split; [reflexivity|]. split; [reflexivity|].
      apply (next_inv K rep view (cf_tracks CF) _ _ _ _ _ _ _ _ I E1).
    - destruct cs as [|c cs]; [discriminate|]. cbn in LC |- *.
      destruct (next_chunk c v held seg chunks I S) as (r & v1 & E1 & S1). rewrite E1. cbn.
      assert (I1 : exists h1, vinv v1 h1).
      { pose proof (next_inv K rep view (cf_tracks CF) _ _ _ _ _ _ _ _ I E1) as [(_ & _ & I1)|(_ & _ & I1)]; eauto. }
      destruct I1 as (h1 & I1).
      destruct (IH cs cend v1 h1 (f_equal pred LC) I1 S1) as (rs & r2 & v2 & E2 & P & V). rewrite E2. cbn.
      exists ((c, r, map PushOk seg, EndAdvance) :: rs), r2, v2. split; [reflexivity|]. split; [|exact V].
      cbn. now rewrite accepted_pushes, P.
  Qed.
End Chunks.
