(** * P_Iterator: IteratorSource over any iterator, and the end of a source, property C85. *)
From Coq Require Import Lia.
From Verif Require Import L_Base L_GenSeq L_GenSeq2 L_Validator L_Utf8Gen S_Iterator P_GenSeq.

(** ** Any iterator is a list up to its first None *)
Section AsList.
  Context {T I : Type} (next : iter_next T I).

  Lemma run_push_all {W E R G} (B : bwriter W T E R) seg (g : G) : forall w tr,
    run_writer B (push_all seg (WAdvance g)) w tr
    = (x <- run_writer B (push_all seg (WAdvance tt)) w tr ;; let '(r, _, t, e) := x in Ret (r, g, t, e)).
  Proof.
    induction seg as [|x seg IH]; intros w tr; cbn [push_all run_writer].
    - destruct (bw_advance B w); reflexivity.
    - destruct (push_item B w x) as [[w' ok]| | |]; cbn [bind]; [apply IH|reflexivity..].
  Qed.

  Lemma push_all_end {W E R G} (B : bwriter W T E R) seg (g : G) : forall w tr r g' t e,
    run_writer B (push_all seg (WAdvance g)) w tr = Ret (r, g', t, e) -> e = EndAdvance.
  Proof.
    induction seg as [|x seg IH]; intros w tr r g' t e H; cbn [push_all run_writer] in H.
    - apply bind_ret in H as (r' & _ & H). now injection H as _ _ _ <-.
    - apply bind_ret in H as ([w' ok] & _ & H). eauto.
  Qed.

  Definition same_step {G1 G2} (rel : G1 -> G2 -> Prop)
    (a : comp (result load_info Never * loader T G1 * (list (wevent T) * wend)))
    (b : comp (result load_info Never * loader T G2 * (list (wevent T) * wend))) : Prop :=
    match a, b with
    | Ret (i1, l1, t1), Ret (i2, l2, t2) => i1 = i2 /\ t1 = t2 /\ ld_heap l1 = ld_heap l2 /\ ld_tail l1 = ld_tail l2 /\ ld_buf l1 = ld_buf l2
        /\ rel (ld_source l1) (ld_source l2)
    | Panic, Panic | UB, UB | OutOfFuel, OutOfFuel => True
    | _, _ => False
    end.

  Lemma load_chunk_same {G1 G2} (rel : G1 -> G2 -> Prop) (s1 : source T Never G1) (s2 : source T Never G2) grow l1 l2 seg g1 g2 :
    ld_heap l1 = ld_heap l2 -> ld_tail l1 = ld_tail l2 -> ld_buf l1 = ld_buf l2 ->
    s1 (ld_source l1) = SRequest (length seg) (push_all seg (WAdvance g1)) ->
    s2 (ld_source l2) = SRequest (length seg) (push_all seg (WAdvance g2)) -> rel g1 g2 ->
    same_step rel (load s1 grow l1) (load s2 grow l2).
  Proof.
    intros H1 H2 H3 E1 E2 R. unfold load. rewrite E1, E2, H1, H2, H3. cbn [run_source].
    destruct (ct_request (gcontrol T Never grow) (ld_buf l2) (length seg)) as [w| | |]; cbn [bind]; try exact Logic.I.
    rewrite (run_push_all _ _ g1), (run_push_all _ _ g2).
    destruct (run_writer _ (push_all seg (WAdvance tt)) w []) as [[[[r u] t] e]| | |]; cbn [bind]; try exact Logic.I.
    destruct r as [[len cap|b len cap|b|er] buf]; cbn; auto 8;
      destruct (commit_to (ld_heap l2) (ld_tail l2) (M_Writer.items b)) as [[h t']| | |]; cbn; auto 8.
  Qed.
  Lemma load_end_same {G1 G2} (rel : G1 -> G2 -> Prop) (s1 : source T Never G1) (s2 : source T Never G2) grow l1 l2 g1 g2 :
    ld_heap l1 = ld_heap l2 -> ld_tail l1 = ld_tail l2 -> ld_buf l1 = ld_buf l2 ->
    s1 (ld_source l1) = SFinish g1 -> s2 (ld_source l2) = SFinish g2 -> rel g1 g2 ->
    same_step rel (load s1 grow l1) (load s2 grow l2).
  Proof.
    intros H1 H2 H3 E1 E2 R. unfold load. rewrite E1, E2, H1, H2, H3. cbn.
    destruct (commit_to (ld_heap l2) (ld_tail l2) _) as [[h t']| | |]; cbn; auto 8.
  Qed.

  Lemma same_histories cs : forall (l1 : loader T I) (l2 : loader T (list (list T))),
    ld_heap l1 = ld_heap l2 -> ld_tail l1 = ld_tail l2 -> ld_buf l1 = ld_buf l2 ->
    (exists it', yields next (ld_source l1) (ld_source l2) it') /\ (loads cs <= length (ld_source l2) + 1 \/ fused next) \/ loads cs = 0 ->
    same_history (load_all (iterator_source_of next) cs l1) (load_all iterator_source cs l2).
  Proof.
    induction cs as [|[grow|] cs IH]; intros l1 l2 H1 H2 H3 R; cbn [load_all].
    - cbn. auto.
    - destruct R as [((it' & Y) & N)|R]; [|discriminate R]. cbn [loads] in N.
      assert (ST : same_step (fun it chunks => (exists it', yields next it chunks it') /\ (loads cs <= length chunks + 1 \/ fused next) \/ loads cs = 0)
        (load (iterator_source_of next) grow l1) (load iterator_source grow l2)).
      { remember (ld_source l1) as it eqn:I1. remember (ld_source l2) as chunks eqn:I2. destruct Y as [it it' NX|it c it1 cs' it' NX Y].
        - eapply load_end_same; auto.
          + unfold iterator_source_of. now rewrite <- I1, NX.
          + unfold iterator_source. now rewrite <- I2.
          + destruct N as [N|F]; [right; cbn in N; lia|]. left. destruct (F _ _ NX) as (it'' & NX'). split; [|auto].
            exists it''. now constructor.
        - eapply load_chunk_same with (seg := c); auto.
          + unfold iterator_source_of. now rewrite <- I1, NX.
          + unfold iterator_source. now rewrite <- I2.
          + left. split; [eauto|]. destruct N as [N|F]; [left; cbn in N; lia|auto]. }
      destruct (load (iterator_source_of next) grow l1) as [[[i1 m1] t1]| | |], (load iterator_source grow l2) as [[[i2 m2] t2]| | |]; cbn in ST |- *; try tauto.
      destruct ST as (-> & -> & A1 & A2 & A3 & RR). specialize (IH m1 m2 A1 A2 A3 RR).
      destruct (load_all (iterator_source_of next) cs m1) as [[rs1 n1]| | |], (load_all iterator_source cs m2) as [[rs2 n2]| | |]; cbn in IH |- *; try tauto.
      destruct IH as (-> & B). auto.
    - unfold force_commit. rewrite H1, H2, H3. destruct (commit_to (ld_heap l2) (ld_tail l2) _) as [[h t]| | |]; cbn [bind]; try exact Logic.I.
      apply IH; auto.
  Qed.
End AsList.

(** A loader of any iterator goes as that of the list of its chunks, up to the load that finds
    the iterator at its end; a fused iterator's, for ever. *)
Theorem C85_as_list {T I} (next : iter_next T I) it chunks it' cs :
  yields next it chunks it' -> loads cs <= length chunks + 1 \/ fused next ->
  same_history (load_all (iterator_source_of next) cs (loader_new it)) (load_all iterator_source cs (loader_new chunks)).
Proof. intros Y N. apply same_histories; auto. left. split; [exists it'; exact Y|exact N]. Qed.

(** ** Done is done *)
Section Done.
  Context {T E G : Type} (src : source T E G).

  (** Once a load has reported the end of a source that has ended for good, further loads and
      forced commits add nothing but empty segments, and each load reports the end. *)
  Lemma idle_on cs : forall l ss, linv l ss [] -> over src (ld_source l) ->
    exists rs l', load_all src cs l = Ret (rs, l') /\ Forall idle_done rs /\ length rs = loads cs
      /\ linv l' (ss ++ repeat [] (length cs)) [].
  Proof.
    induction cs as [|[grow|] cs IH]; intros l ss I O; cbn [load_all].
    - exists [], l. cbn. rewrite app_nil_r. auto.
    - pose proof I as (C & H). destruct O as (P & Pg & O). destruct (O _ Pg) as (g' & SF & Pg').
      unfold load. rewrite SF. cbn [run_source ct_finish gcontrol bind]. rewrite (holds_items _ _ H).
      destruct (commit_ok _ _ _ _ [] C) as (h' & t' & CE & C'). rewrite CE. cbn [bind].
      destruct (IH (Loader h' t' vec_new g') (ss ++ [[]])) as (rs & l' & L & F & N & I').
      { split; [exact C'|apply holds_new]. } { exists P. auto. }
      rewrite L. cbn [bind]. eexists _, _. split; [reflexivity|]. cbn [length loads repeat]. rewrite N.
      split; [constructor; [|exact F]; eexists _, _; repeat split; cbn; now rewrite (holds_len _ _ H)|].
      split; [reflexivity|]. now rewrite <- app_assoc in I'.
    - destruct (force_ok _ _ _ I) as (l1 & F1 & I1 & S1). rewrite F1. cbn [bind].
      destruct (IH l1 (ss ++ [[]])) as (rs & l' & L & F & N & I'); [exact I1|rewrite S1; exact O|].
      exists rs, l'. split; [exact L|]. split; [exact F|]. split; [exact N|]. cbn [length repeat]. now rewrite <- app_assoc in I'.
  Qed.

  Lemma done_empty cs0 g rs0 l0 grow info l tr : load_all src cs0 (loader_new g) = Ret (rs0, l0) ->
    load src grow l0 = Ret (ROk info, l, tr) -> is_done info = true -> exists ss, linv l ss [].
  Proof.
    intros L0 L1 D. destruct (load_all_inv src cs0 _ _ _ _ _ (linv_new g) L0) as (ss & xs & I & _). destruct tr as [tr en].
    destruct (load_inv src grow l0 ss xs _ _ _ _ I L1) as (ss' & xs' & I' & P). destruct en.
    - destruct P as (_ & new & -> & Q). injection Q as ->. discriminate D.
    - destruct P as (_ & (e & Q) & _). discriminate.
    - destruct P as (_ & -> & _). eauto.
    - destruct P as (_ & _ & (e & Q) & _). discriminate.
  Qed.

  Theorem C85_done_partial cs0 g rs0 l0 grow info l tr cs :
    load_all src cs0 (loader_new g) = Ret (rs0, l0) -> load src grow l0 = Ret (ROk info, l, tr) -> is_done info = true ->
    over src (ld_source l) ->
    exists rs l' ss, load_all src cs l = Ret (rs, l') /\ Forall idle_done rs /\ length rs = loads cs
      /\ committed l ss /\ committed l' (ss ++ repeat [] (length cs)) /\ M_Writer.items (ld_buf l') = [].
  Proof.
    intros L0 L1 D O. destruct (done_empty _ _ _ _ _ _ _ _ L0 L1 D) as (ss & I).
    destruct (idle_on cs l ss I O) as (rs & l' & L & F & N & (C' & H')). exists rs, l', ss.
    split; [exact L|]. split; [exact F|]. split; [exact N|]. split; [apply I|]. split; [exact C'|exact (holds_items _ _ H')].
  Qed.

  (** For any source: what is added after that is exactly what its later writes are told was accepted. *)
  Theorem C85_after_done_partial cs0 g rs0 l0 grow info l tr cs rs l' :
    load_all src cs0 (loader_new g) = Ret (rs0, l0) -> load src grow l0 = Ret (ROk info, l, tr) -> is_done info = true ->
    load_all src cs l = Ret (rs, l') -> Forall not_cancelled rs ->
    exists ss ss', committed l ss /\ committed l' ss' /\
      concat ss' ++ M_Writer.items (ld_buf l') = concat ss ++ concat (map (fun r => accepted (fst (snd r))) rs).
  Proof.
    intros L0 L1 D L F. destruct (done_empty _ _ _ _ _ _ _ _ L0 L1 D) as (ss & I).
    destruct (load_all_inv src cs _ _ _ _ _ I L) as (ss' & xs' & (C' & H') & Q). exists ss, ss'.
    split; [apply I|]. split; [exact C'|]. rewrite (holds_items _ _ H'). specialize (Q F). cbn in Q. exact Q.
  Qed.
End Done.

(** A fused iterator ends for good. *)
Theorem C85_fused_partial {T I} (next : iter_next T I) cs0 it rs0 l0 grow info l tr cs :
  fused next ->
  load_all (iterator_source_of next) cs0 (loader_new it) = Ret (rs0, l0) ->
  load (iterator_source_of next) grow l0 = Ret (ROk info, l, tr) -> is_done info = true ->
  exists rs l' ss, load_all (iterator_source_of next) cs l = Ret (rs, l') /\ Forall idle_done rs /\ length rs = loads cs
    /\ committed l ss /\ committed l' (ss ++ repeat [] (length cs)) /\ M_Writer.items (ld_buf l') = [].
Proof.
  intros F L0 L1 D. eapply C85_done_partial; eauto.
  exists (fun i => exists i', next i = (None, i')). split.
  - destruct tr as [tr en]. destruct (C47_load_info _ _ _ _ _ _ _ _ _ _ L0 L1) as (_ & _ & _ & _ & _ & _ & _ & _ & DN & _).
    apply DN in D. subst en. unfold load, iterator_source_of in L1.
    destruct (next (ld_source l0)) as [[seg|] i'] eqn:N; cbn [run_source] in L1.
    + exfalso. apply bind_ret in L1 as ([[[[r u] g] t] e] & L2 & L3).
      apply bind_ret in L2 as (w & _ & L2). apply push_all_end in L2. subst e.
      destruct r as [len cap|b len cap|b|er]; cbn in L3; try (injection L3 as _ _ _ X; discriminate X);
        apply bind_ret in L3 as ([h' t'] & _ & L3); injection L3 as _ _ _ X; discriminate X.
    + apply bind_ret in L1 as ([[[[r u] g] t] e] & L2 & L3). cbn in L2. injection L2 as <- <- <- _ _. cbn in L3.
      apply bind_ret in L3 as ([h' t'] & _ & L3). injection L3 as _ <- _. cbn. exact (F _ _ N).
  - intros i (i' & N). exists i'. split; [unfold iterator_source_of; now rewrite N|exact (F _ _ N)].
Qed.

(** The same through Utf8Validator, which keeps what it holds back. *)
Section DoneUtf8.
  Context {E G : Type} (src : source byte E G) (grow : nat -> nat).

  Lemma utf8_inv_all n : forall l ss xs held rs l', ulinv l ss xs held -> load_utf8_all src grow n l = Ret (rs, l') ->
    exists ss' xs' held', ulinv l' ss' xs' held'.
  Proof.
    induction n as [|n IH]; intros l ss xs held rs l' I H; cbn [load_utf8_all] in H; [injection H as _ <-; eauto|].
    apply bind_ret in H as ([[i l1] [tr en]] & H1 & H). apply bind_ret in H as ([rs2 l2] & H2 & H). injection H as _ <-.
    destruct (load_utf8_inv src grow _ _ _ _ _ _ _ _ I H1) as (ss1 & xs1 & held1 & I1 & _). eauto.
  Qed.

  Lemma idle_on_utf8 n : forall l ss held, ulinv l ss [] held -> over src (vsource (ld_source l)) ->
    exists rs l', load_utf8_all src grow n l = Ret (rs, l') /\ Forall idle_done rs /\ length rs = n
      /\ ulinv l' (ss ++ repeat [] n) [] held.
  Proof.
    induction n as [|n IH]; intros l ss held I O; cbn [load_utf8_all].
    - exists [], l. cbn. rewrite app_nil_r. auto.
    - pose proof I as (C & H & V). destruct O as (P & Pg & O). destruct (O _ Pg) as (g' & SF & Pg').
      unfold load_utf8, validator_next. rewrite SF. cbn [run_source ct_finish ucontrol gcontrol bind]. rewrite (holds_items _ _ H).
      destruct (commit_ok _ _ _ _ [] C) as (h' & t' & CE & C'). rewrite CE. cbn [bind].
      destruct (IH (Loader h' t' vec_new (Validator (buffered (ld_source l)) (rest (ld_source l)) g')) (ss ++ [[]]) held) as (rs & l' & L & F & N & I').
      { split; [exact C'|]. split; [apply holds_new|exact V]. } { exists P. auto. }
      rewrite L. cbn [bind]. eexists _, _. split; [reflexivity|]. cbn [length repeat]. rewrite N.
      split; [constructor; [|exact F]; eexists _, _; repeat split; cbn; now rewrite (holds_len _ _ H)|].
      split; [reflexivity|]. now rewrite <- app_assoc in I'.
  Qed.

  Theorem C85_done_utf8_partial n0 g rs0 l0 info l tr n :
    load_utf8_all src grow n0 (loader_new (validator_new g)) = Ret (rs0, l0) ->
    load_utf8 src grow l0 = Ret (ROk info, l, tr) -> is_done info = true -> over src (vsource (ld_source l)) ->
    exists rs l' ss, load_utf8_all src grow n l = Ret (rs, l') /\ Forall idle_done rs /\ length rs = n
      /\ committed l ss /\ committed l' (ss ++ repeat [] n) /\ M_Writer.items (ld_buf l') = []
      /\ firstn (buffered (ld_source l')) (rest (ld_source l')) = firstn (buffered (ld_source l)) (rest (ld_source l)).
  Proof.
    intros L0 L1 D O. destruct (utf8_inv_all n0 _ _ _ _ _ _ (ulinv_new g) L0) as (ss0 & xs0 & held0 & I0). destruct tr as [tr en].
    destruct (load_utf8_inv src grow _ _ _ _ _ _ _ _ I0 L1) as (ss & xs & held & I & Q).
    assert (xs = []) as ->.
    { destruct en.
      - destruct Q as [(X & _)|((i & X & Y) & _)]; [discriminate X|]. injection X as ->. congruence.
      - destruct Q as ((e & X) & _). discriminate X.
      - apply Q.
      - destruct Q as ((e & X) & _). discriminate X. }
    destruct (idle_on_utf8 n l ss held I O) as (rs & l' & L & F & N & (C' & H' & V')). exists rs, l', ss.
    split; [exact L|]. split; [exact F|]. split; [exact N|]. split; [apply I|]. split; [exact C'|]. split; [exact (holds_items _ _ H')|].
    destruct V' as (V' & _), I as (_ & _ & (V & _)). congruence.
  Qed.
End DoneUtf8.

(** ** C85 as stated is false *)
(** An iterator over what is there now ([mpsc::Receiver::try_iter]): [None] is a pause. *)
Definition arrivals {T} : iter_next T (list (option (list T))) :=
  fun it => match it with [] => (None, []) | a :: it' => (a, it') end.
Theorem C85_done_refuted : exists (it : list (option (list nat))) grow rs0 l0 info l tr rs l' ss ss',
  (forall n, n <= grow n) /\
  load_all (iterator_source_of arrivals) [LLoad grow] (loader_new it) = Ret (rs0, l0) /\
  load (iterator_source_of arrivals) grow l0 = Ret (ROk info, l, tr) /\ is_done info = true /\
  load_all (iterator_source_of arrivals) [LLoad grow; LForce] l = Ret (rs, l') /\
  committed l ss /\ committed l' ss' /\ concat ss = [1] /\ concat ss' = [1; 2].
Proof.
  exists [Some [1]; None; Some [2]], (fun n => n). eexists _, _, _, _, _, _, _, [[1]], [[1]; [2]].
  split; [auto|]. split; [vm_compute; reflexivity|]. split; [vm_compute; reflexivity|]. split; [reflexivity|].
  split; [vm_compute; reflexivity|]. split; [|split; [|split; reflexivity]].
  - eapply chain_node; [reflexivity|]. now constructor.
  - eapply chain_node; [reflexivity|]. eapply chain_node; [reflexivity|]. now constructor.
Qed.

(** ** Cases *)
Definition list_next {T} : iter_next T (list (list T)) := fun it => match it with [] => (None, []) | c :: it' => (Some c, it') end.
Example C85_fused_case {T} : fused (@list_next T).
Proof. intros [|c it] it' H; [|discriminate]. injection H as <-. eexists. reflexivity. Qed.
Example C85_yields_case : yields arrivals [Some [1]; Some [2; 3]; None; Some [4]] [[1]; [2; 3]] [Some [4]].
Proof. repeat (eapply yields_chunk; [reflexivity|]). now constructor. Qed.
Example C85_over_case : over (iterator_source_of (@arrivals nat)) [] /\ ~ fused (@arrivals nat).
Proof.
  split; [exists (fun it => it = []); split; [reflexivity|]; intros it ->; eexists; split; reflexivity|].
  intros F. destruct (F [None; Some [4]] [Some [4]] eq_refl) as (it & H). discriminate.
Qed.

Print Assumptions C85_as_list.
Print Assumptions C85_done_partial.
Print Assumptions C85_after_done_partial.
Print Assumptions C85_fused_partial.
Print Assumptions C85_done_utf8_partial.
Print Assumptions C85_done_refuted.
