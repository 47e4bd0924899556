(** * P_Utf8: properties C51-C55. *)
From Coq Require Import Lia.
From Verif Require Import M_Utf8 S_Utf8 S_GenSeq L_Utf8 L_Validator L_Utf8Gen.

(** The ideal control meets the requirements. *)
Lemma vec_control_conforming T E :
  conforming (vec_control T E) (fun _ w v => w = v) (fun _ r => r).
Proof.
  split.
  - split.
    + intros _. split; cbn.
      * intros w v n -> H. now injection H.
      * intros w v i x -> H. exact H.
      * intros w v i x w' -> H. eauto.
      * intros w v n w' -> H. eauto.
    + intros [] n w H. cbn in H. injection H as <-. unfold with_capacity. eauto.
    + cbn. intros [] w v xs r -> HD H. injection H as <-. f_equal. now apply holds_items.
    + cbn. intros [] w v e r -> H. now injection H.
    + cbn. intros [] e r H. now injection H.
    + cbn. intros [] r H. now injection H.
  - intros [] n. eexists _, _. split; [reflexivity|]. split; [reflexivity|]. rewrite repeat_length. auto.
  - cbn. intros [] w v ->. reflexivity.
  - cbn. intros [] w v ->. reflexivity.
  - cbn. intros [] w v i x -> H. exact H.
  - cbn. intros [] w v i x v' -> H. eauto.
  - cbn. intros [] w v n v' -> H. eauto.
  - cbn. eauto.
  - cbn. eauto.
  - cbn. eauto.
Qed.

Lemma snoc_split {X} (l : list X) : l = [] \/ exists l' x, l = l' ++ [x].
Proof. induction l as [|x l _] using rev_ind; eauto. Qed.

Section Over.
  Context {C W E R G : Type} (K : control C W byte (uerror E) R).
  Context (rep : C -> W -> vec byte -> Prop) (view : C -> R -> outcome byte (uerror E)).

  (** ** C51 *)
  (** Whatever the source and the errors, what was passed on is valid UTF-8. *)
  Theorem C51_valid (TR : tracks K rep view) (src : source byte E G) g cs rs v :
    next_all K src cs (validator_new g) = Ret (rs, v) ->
    utf8 (concat (map (passed_on view) rs)).
  Proof. intros H. exact (next_all_utf8 K rep view TR src _ _ _ _ _ (vinv_new g) H). Qed.

  (** Passed on and held back is what was produced. *)
  Theorem C51_conserved (TR : tracks K rep view) (src : source byte E G) g cs rs v :
    next_all K src cs (validator_new g) = Ret (rs, v) ->
    Forall (fun x => ~ reports view x InvalidSequence) rs ->
    concat (map produced rs) = concat (map (passed_on view) rs) ++ firstn (buffered v) (rest v)
    /\ length (firstn (buffered v) (rest v)) = buffered v /\ buffered v <= 3.
  Proof.
    intros H F. destruct (next_all_conserved K rep view TR src _ _ _ _ _ (vinv_new g) H F) as (h & (A & B & D & _) & EQ).
    cbn in EQ. rewrite A. auto.
  Qed.

  (** ** C52 *)
  (** While the bytes begin a text nothing is reported. *)
  Theorem C52_no_error (TR : tracks K rep view) (src : source byte E G) g cs rs v z :
    next_all K src cs (validator_new g) = Ret (rs, v) ->
    utf8 (concat (map produced rs) ++ z) ->
    Forall (fun x => ~ reports view x InvalidSequence) rs.
  Proof. intros H U. exact (next_all_accepts K rep view TR src _ _ _ _ _ z (vinv_new g) H U). Qed.

  (** Once the bytes are a text they have all been passed on. *)
  Theorem C52_all_passed_on (TR : tracks K rep view) (src : source byte E G) g cs rs v :
    next_all K src cs (validator_new g) = Ret (rs, v) ->
    utf8 (concat (map produced rs)) ->
    concat (map (passed_on view) rs) = concat (map produced rs).
  Proof.
    intros H U.
    assert (F : Forall (fun x => ~ reports view x InvalidSequence) rs).
    { apply (C52_no_error TR src g cs rs v [] H). now rewrite app_nil_r. }
    destruct (next_all_conserved K rep view TR src _ _ _ _ _ (vinv_new g) H F) as (h & (A & B & D & Z) & EQ).
    pose proof (C51_valid TR src g cs rs v H) as U1. cbn in EQ. rewrite EQ in U.
    apply (utf8_rest _ _ U1) in U. apply v_utf8 in U. rewrite Z in U. destruct h; [|discriminate].
    now rewrite EQ, app_nil_r.
  Qed.

  (** ** C53 *)
  (** Reported only when no text begins with these bytes. *)
  Theorem C53_sound (TR : tracks K rep view) (src : source byte E G) g cs rs x v z :
    next_all K src cs (validator_new g) = Ret (rs ++ [x], v) ->
    Forall (fun x => ~ reports view x InvalidSequence) rs ->
    reports view x InvalidSequence ->
    ~ utf8 (concat (map produced (rs ++ [x])) ++ z).
  Proof.
    intros H F R0 U. pose proof (C52_no_error TR src g cs _ v z H U) as F2.
    apply Forall_app in F2 as (_ & F2). inversion F2; subst. contradiction.
  Qed.

  (** If a text is followed by bytes at which no character starts, at most
      three of these can have been produced without a report. *)
  Theorem C53_prompt (TR : tracks K rep view) (src : source byte E G) g cs rs v p q :
    next_all K src cs (validator_new g) = Ret (rs, v) ->
    concat (map produced rs) = p ++ q -> utf8 p ->
    (forall c z, scalar c -> q <> encode c ++ z) ->
    4 <= length q ->
    Exists (fun x => reports view x InvalidSequence) rs.
  Proof.
    intros H EQ (t & Ft & ->) NQ L.
    assert (DEC : forall x, {reports view x InvalidSequence} + {~ reports view x InvalidSequence}).
    { intros [[[c r] tr] en]. unfold reports. destruct (view c r) as [xs|[|e]|]; [right|left|right|right]; congruence. }
    destruct (Exists_dec _ rs DEC) as [|NE]; auto. exfalso.
    assert (F : Forall (fun x => ~ reports view x InvalidSequence) rs) by (apply Forall_Exists_neg; auto).
    destruct (next_all_conserved K rep view TR src _ _ _ _ _ (vinv_new g) H F) as (h & (A & B & D & Z) & EQ2).
    pose proof (C51_valid TR src g cs rs v H) as (t2 & Ft2 & EQ3). cbn in EQ2. rewrite EQ, EQ3 in EQ2.
    apply v_zero_iff in NQ.
    pose proof (v_text t q Ft) as V1. pose proof (v_text t2 h Ft2) as V2. rewrite <- EQ2 in V2.
    assert (LE : length (flat_map encode t) = length (flat_map encode t2)) by lia.
    apply (f_equal (@length byte)) in EQ2. rewrite !app_length in EQ2. lia.
  Qed.

  (** Exactly: it is reported as soon as four bytes have been produced behind
      the last complete character, and not before. *)
  Theorem C53_exact (TR : tracks K rep view) (src : source byte E G) g cs rs x v :
    next_all K src cs (validator_new g) = Ret (rs ++ [x], v) ->
    Forall (fun x => ~ reports view x InvalidSequence) rs ->
    (reports view x InvalidSequence <->
     exists p q, concat (map produced (rs ++ [x])) = p ++ q /\ utf8 p /\
       (forall c z, scalar c -> q <> encode c ++ z) /\ 4 <= length q).
  Proof.
    intros H F. split.
    - intros R0. pose proof (next_all_length K src cs _ _ _ H) as L. rewrite app_length in L. cbn in L.
      destruct (snoc_split cs) as [->|(cs1 & c & ->)]; [cbn in L; lia|].
      destruct (next_all_app K src _ _ _ _ _ H) as (rs1 & v1 & rs2 & H1 & H2 & EQ & L1).
      cbn in H2. apply bind_ret in H2 as ([[[r v2] tr] en] & H2 & H3). injection H3 as <- <-.
      apply app_inj_tail in EQ as (<- & ->). cbn in R0.
      destruct (next_all_conserved K rep view TR src _ _ _ _ _ (vinv_new g) H1 F) as (h & I1 & EQ2).
      destruct (next_invalid K rep view TR src _ _ _ _ _ _ _ [] I1 H2 R0) as (-> & _).
      pose proof (next_inv K rep view TR src _ _ _ _ _ _ _ I1 H2) as [(N & _ & _)|(_ & V' & _)]; [|congruence].
      pose proof (C51_valid TR src g cs1 rs v1 H1) as U1.
      destruct (v_split (h ++ accepted tr)) as (t & q & Ft & EQ3 & Z & _ & _ & SK). rewrite SK in N.
      exists (concat (map (passed_on view) rs) ++ flat_map encode t), q. split; [|split; [|split]].
      + rewrite map_app, concat_app. etransitivity; [eapply (f_equal (fun l => l ++ _)); exact EQ2|].
        cbn [map concat]. unfold produced at 1. rewrite app_nil_r, <- !app_assoc. f_equal. exact EQ3.
      + apply utf8_app; [exact U1|]. exists t. auto.
      + now apply v_zero_iff.
      + lia.
    - intros (p & q & EQ & U & NQ & L).
      pose proof (C53_prompt TR src g cs _ v p q H EQ U NQ L) as X.
      apply Exists_app in X as [X|X].
      + exfalso. rewrite Forall_forall in F. apply Exists_exists in X as (y & Y1 & Y2). now apply (F y).
      + inversion X as [? ? Y|? ? Y]; subst; [exact Y|inversion Y].
  Qed.
End Over.

(** ** C52 for an iterator source: it also does not fail. *)
Theorem C52_chunks {C W R} (K : control C W byte (uerror Never) R) rep view :
  conforming K rep view ->
  forall chunks cs cend, length cs = length chunks -> utf8 (concat chunks) ->
  exists rs r v, next_all K iterator_source (cs ++ [cend]) (validator_new chunks)
                   = Ret (rs ++ [(cend, r, [], EndFinish)], v)
    /\ Forall (no_error view) rs /\ view cend r = Ended
    /\ concat (map (passed_on view) rs) = concat chunks.
Proof.
  intros CF chunks cs cend L U.
  destruct (next_chunks K rep view CF chunks cs cend _ _ L (vinv_new chunks) eq_refl) as (rs & r & v & EQ & P & V).
  exists rs, r, v. split; [exact EQ|].
  assert (PR : concat (map produced (rs ++ [(cend, r, [], EndFinish)])) = concat chunks).
  { rewrite map_app, concat_app. cbn. now rewrite !app_nil_r. }
  assert (F : Forall (fun x => ~ reports view x InvalidSequence) (rs ++ [(cend, r, [], EndFinish)])).
  { apply (C52_no_error K rep view (cf_tracks CF) _ _ _ _ _ [] EQ). now rewrite PR, app_nil_r. }
  split; [|split; [exact V|]].
  - apply Forall_app in F as (F & _). eapply Forall_impl; [|exact F].
    intros [[[c1 r1] tr1] en1]. unfold reports, no_error. destruct (view c1 r1) as [xs|[|[]]|]; auto.
  - pose proof (C52_all_passed_on K rep view (cf_tracks CF) _ _ _ _ _ EQ) as A.
    rewrite PR in A. specialize (A U). rewrite map_app, concat_app in A. cbn in A. rewrite V in A.
    now rewrite !app_nil_r in A.
Qed.

(** ** C54 *)
Lemma first_such {X} (P : X -> Prop) (dec : forall x, {P x} + {~ P x}) l : Exists P l ->
  exists a x b, l = a ++ x :: b /\ Forall (fun x => ~ P x) a /\ P x.
Proof.
  induction l as [|y l IH]; intros H; [inversion H|]. destruct (dec y) as [Py|Ny].
  - exists [], y, l. auto.
  - inversion H; subst; [contradiction|]. destruct (IH H1) as (a & x & b & -> & F & Px). exists (y :: a), x, b. auto.
Qed.
Lemma next_all_prefix {C W E R G} (K : control C W byte (uerror E) R) (src : source byte E G) cs : forall v rs rs' v',
  next_all K src cs v = Ret (rs ++ rs', v') -> exists cs1 v1, next_all K src cs1 v = Ret (rs, v1).
Proof.
  intros v rs rs' v' H. pose proof (next_all_length K src cs v _ v' H) as L. rewrite app_length in L.
  rewrite <- (firstn_skipn (length rs) cs) in H.
  destruct (next_all_app K src _ _ _ _ _ H) as (rs1 & v1 & rs2 & H1 & _ & EQ & L1).
  rewrite firstn_length, Nat.min_l in L1 by lia.
  apply app_inv_length in EQ as (<- & _); [|congruence]. eauto.
Qed.

(** Up to three trailing bytes at which no character starts are dropped without
    a report, also when no text begins with them. *)
Theorem C54_silent_partial {C W R} (K : control C W byte (uerror Never) R) rep view :
  conforming K rep view ->
  forall chunks cs cend p q, length cs = length chunks -> concat chunks = p ++ q -> utf8 p ->
  (forall c z, scalar c -> q <> encode c ++ z) -> length q <= 3 ->
  exists rs r v, next_all K iterator_source (cs ++ [cend]) (validator_new chunks)
                   = Ret (rs ++ [(cend, r, [], EndFinish)], v)
    /\ Forall (no_error view) rs /\ view cend r = Ended
    /\ concat (map (passed_on view) rs) = p.
Proof.
  intros CF chunks cs cend p q L EQC U NQ LQ.
  destruct (next_chunks K rep view CF chunks cs cend _ _ L (vinv_new chunks) eq_refl) as (rs & r & v & EQ & P & V).
  exists rs, r, v. split; [exact EQ|].
  assert (PR : concat (map produced (rs ++ [(cend, r, [], EndFinish)])) = concat chunks).
  { rewrite map_app, concat_app. cbn. now rewrite !app_nil_r. }
  assert (F : Forall (fun x => ~ reports view x InvalidSequence) (rs ++ [(cend, r, [], EndFinish)])).
  { assert (DEC : forall x, {reports view x InvalidSequence} + {~ reports view x InvalidSequence}).
    { intros [[[c r0] tr] en]. unfold reports. destruct (view c r0) as [xs|[|e]|]; [right|left|right|right]; congruence. }
    apply Forall_Exists_neg. intros X. destruct (first_such _ DEC _ X) as (r1 & x & r2 & ER & F1 & R1).
    pose proof (next_all_length K _ _ _ _ _ EQ) as LL. rewrite ER in EQ, PR, LL.
    replace (r1 ++ x :: r2) with ((r1 ++ [x]) ++ r2) in * by (now rewrite <- app_assoc).
    destruct (next_all_prefix K iterator_source (cs ++ [cend]) _ _ _ _ EQ) as (cs1 & v1 & H1).
    destruct (proj1 (C53_exact K rep view (cf_tracks CF) _ _ _ _ _ _ H1 F1) R1) as (p' & q' & EP & U' & NQ' & LQ').
    rewrite map_app, concat_app, EQC in PR. unfold nrecord in EP, PR. rewrite EP, <- app_assoc in PR.
    apply v_zero_iff in NQ, NQ'. destruct U as (t & Ft & ->), U' as (t' & Ft' & ->).
    pose proof (v_text t q Ft) as V1.
    assert (V2 : valid_up_to (flat_map encode t ++ q) = length (flat_map encode t') + valid_up_to (q' ++ concat (map produced r2))).
    { rewrite <- (v_text t' _ Ft'). f_equal. symmetry. exact PR. }
    rewrite V1 in V2.
    assert (valid_up_to (q' ++ concat (map produced r2)) = 0) as V3.
    { apply v_zero_iff. intros c z Sc Q. apply v_zero_iff with (c := c) (z := skipn (length (encode c)) q') in NQ'; [|exact Sc].
      apply NQ'. pose proof (encode_length c Sc). apply (f_equal (firstn (length (encode c)))) in Q.
      rewrite !firstn_app in Q. replace (length (encode c) - length q') with 0 in Q by lia.
      rewrite Nat.sub_diag, !firstn_O, !app_nil_r, firstn_all in Q. rewrite <- Q at 1. now rewrite firstn_skipn. }
    apply (f_equal (@length byte)) in PR. rewrite !app_length in PR. lia. }
  split; [|split; [exact V|]].
  - apply Forall_app in F as (F & _). eapply Forall_impl; [|exact F].
    intros [[[c1 r1] tr1] en1]. unfold reports, no_error. destruct (view c1 r1) as [xs|[|[]]|]; auto.
  - destruct (next_all_conserved K rep view (cf_tracks CF) _ _ _ _ _ _ (vinv_new chunks) EQ F) as (h & (A & B & D & Z) & EQ2).
    pose proof (C51_valid K rep view (cf_tracks CF) _ _ _ _ _ EQ) as (t2 & Ft2 & EQ3).
    change ([] ++ ?l) with l in EQ2. rewrite PR, EQC, EQ3 in EQ2. destruct U as (t & Ft & ->).
    apply v_zero_iff in NQ. pose proof (v_text t q Ft) as V1. pose proof (v_text t2 h Ft2) as V2. rewrite <- EQ2 in V2.
    apply app_inv_length in EQ2 as (EQ2 & _); [|lia].
    rewrite map_app, concat_app in EQ3. cbn in EQ3. rewrite V in EQ3. rewrite !app_nil_r in EQ3. etransitivity; [exact EQ3|symmetry; exact EQ2].
Qed.

(** From four bytes on it is reported before the end. *)
Theorem C54_four_bytes_partial {C W R} (K : control C W byte (uerror Never) R) rep view :
  conforming K rep view ->
  forall chunks cs cend p q, length cs = length chunks -> concat chunks = p ++ q -> utf8 p ->
  (forall c z, scalar c -> q <> encode c ++ z) -> 4 <= length q ->
  exists rs r v, next_all K iterator_source (cs ++ [cend]) (validator_new chunks)
                   = Ret (rs ++ [(cend, r, [], EndFinish)], v)
    /\ Exists (fun x => reports view x InvalidSequence) rs.
Proof.
  intros CF chunks cs cend p q L EQC U NQ LQ.
  destruct (next_chunks K rep view CF chunks cs cend _ _ L (vinv_new chunks) eq_refl) as (rs & r & v & EQ & P & V).
  exists rs, r, v. split; [exact EQ|].
  assert (PR : concat (map produced (rs ++ [(cend, r, [], EndFinish)])) = p ++ q).
  { rewrite map_app, concat_app. cbn. rewrite !app_nil_r. rewrite <- EQC. exact P. }
  pose proof (C53_prompt K rep view (cf_tracks CF) _ _ _ _ _ p q EQ PR U NQ LQ) as X.
  apply Exists_app in X as [X|X]; [exact X|]. inversion X as [? ? Y|? ? Y]; subst.
  - cbn in Y. congruence.
  - inversion Y.
Qed.

(** "あ" without its last byte. *)
Theorem C54_truncated_refuted :
  exists chunks rs v, ~ utf8 (concat chunks)
    /\ next_all (vec_control byte (uerror Never)) iterator_source [tt; tt] (validator_new chunks) = Ret (rs, v)
    /\ concat (map produced rs) = concat chunks
    /\ Forall (no_error (fun _ r => r)) rs
    /\ exists rs0 en, rs = rs0 ++ [(tt, Ended, [], en)].
Proof.
  exists [[0xE3; 0x81]]%N, [(tt, Delivered [], [PushOk 0xE3; PushOk 0x81]%N, EndAdvance); (tt, Ended, [], EndFinish)].
  exists (Validator 2 [0xE3; 0x81; 0]%N []). split; [|split; [vm_compute; reflexivity|]].
  - intros U. apply v_utf8 in U. discriminate.
  - split; [reflexivity|]. split; [repeat constructor|]. eexists [_], _. reflexivity.
Qed.

(** "A" and a byte that begins no character: also dropped. *)
Example C54_case_invalid :
  (forall z, ~ utf8 ([0xFF]%N ++ z)) /\
  exists v, next_all (vec_control byte (uerror Never)) iterator_source [tt; tt] (validator_new [[0x41; 0xFF]]%N)
    = Ret ([(tt, Delivered [0x41]%N, [PushOk 0x41; PushOk 0xFF]%N, EndAdvance); (tt, Ended, [], EndFinish)], v).
Proof.
  split; [|eexists; vm_compute; reflexivity].
  intros z U. apply v_utf8 in U. destruct z as [|b1 [|b2 [|b3 z]]]; discriminate.
Qed.

(** ** C55 *)
(** Over the generic loader, whatever the source: without errors, what is in
    the sequence and its buffer is valid UTF-8, and followed by the held-back
    bytes it is what the writers accepted. *)
Theorem C55_safe_partial {E G} (src : source byte E G) grow g n rs l :
  load_utf8_all src grow n (loader_new (validator_new g)) = Ret (rs, l) ->
  Forall load_ok rs ->
  exists ss xs, committed l ss /\ holds (ld_buf l) xs
    /\ utf8 (concat ss ++ xs)
    /\ concat ss ++ xs ++ firstn (buffered (ld_source l)) (rest (ld_source l)) = concat (map load_produced rs).
Proof.
  intros H F. destruct (load_utf8_all_inv src grow n _ _ _ _ _ _ (ulinv_new g) H F utf8_nil)
    as (ss & xs & h & (A & B & (D & _)) & U & EQ).
  exists ss, xs. rewrite D. cbn in EQ. auto.
Qed.

(** A chunk of an iterator source, in any state reached without an error:
    exactly how much of it the writer accepts, or that it panics. *)
Theorem C55_chunk_exact_partial grow n chunks rs (l : loader byte (validator (list (list byte)))) seg more :
  (forall n, n <= grow n) ->
  load_utf8_all iterator_source grow n (loader_new (validator_new chunks)) = Ret (rs, l) ->
  Forall load_ok rs ->
  vsource (ld_source l) = seg :: more ->
  let h := buffered (ld_source l) in
  let spare := if h + length seg <=? vcap (ld_buf l) - vlen (ld_buf l)
               then vcap (ld_buf l) - vlen (ld_buf l) else grow (h + length seg) in
  match kept_utf8 spare h seg with
  | Some k => exists i l' tr, load_utf8 iterator_source grow l = Ret (i, l', (tr, EndAdvance))
      /\ accepted tr = k /\ vsource (ld_source l') = more
  | None => load_utf8 iterator_source grow l = Panic
  end.
Proof.
  intros GR H F S. destruct (load_utf8_all_inv iterator_source grow n _ _ _ _ _ _ (ulinv_new chunks) H F utf8_nil)
    as (ss & xs & h & I & _).
  pose proof I as (_ & HB & (_ & LB & _)). rewrite (holds_len _ _ HB), <- LB.
  pose proof (load_utf8_chunk grow GR l ss xs h seg more I S) as H1. cbv zeta in H1. cbv zeta.
  destruct (kept_utf8 _ _ seg) as [k|]; [|exact H1].
  destruct H1 as (i & l' & tr & R & A & M & _). eauto 6.
Qed.

(** The state after "あ"'s first byte meets the hypotheses; the second byte is
    refused. *)
Example C55_chunk_exact_case :
  exists rs l, load_utf8_all iterator_source (fun n => n) 1 (loader_new (validator_new [[0xE3]; [0x81]; [0x82]]%N)) = Ret (rs, l)
    /\ Forall load_ok rs /\ vsource (ld_source l) = [0x81]%N :: [[0x82]]%N /\ buffered (ld_source l) = 1.
Proof.
  let r := eval vm_compute in (load_utf8_all iterator_source (fun n => n) 1 (loader_new (validator_new [[0xE3]; [0x81]; [0x82]]%N))) in
  match r with Ret (?a, ?b) => exists a, b end.
  split; [vm_compute; reflexivity|]. split; [constructor; [eexists; reflexivity|constructor]|]. split; reflexivity.
Qed.
Example C55_kept_cases :
  kept_utf8 2 1 [0x81]%N = Some [] /\ kept_utf8 3 1 [0x81; 0x82]%N = Some [0x81; 0x82]%N /\ kept_utf8 4 3 [0x80]%N = None.
Proof. repeat split. Qed.

(** "あ", a byte at a time: everything is loaded, no error, and it is lost. *)
Theorem C55_lost_refuted :
  exists chunks rs l, utf8 (concat chunks) /\ concat chunks <> []
    /\ load_utf8_all iterator_source (fun n => n) 4 (loader_new (validator_new chunks)) = Ret (rs, l)
    /\ Forall load_ok rs
    /\ (exists info tr, last rs (RErr InvalidSequence, ([], EndCancel)) = (ROk info, tr) /\ is_done info = true)
    /\ forall ss, committed l ss -> concat ss = [].
Proof.
  exists [[0xE3]; [0x81]; [0x82]]%N.
  let r := eval vm_compute in (load_utf8_all iterator_source (fun n => n) 4 (loader_new (validator_new [[0xE3]; [0x81]; [0x82]]%N))) in
  match r with Ret (?a, ?b) => exists a, b end.
  split; [exists [0x3042]%N; split; [constructor; [left; lia|constructor]|reflexivity]|].
  split; [discriminate|]. split; [vm_compute; reflexivity|].
  split; [repeat (constructor; [eexists; reflexivity|]); constructor|].
  split; [eexists _, _; split; reflexivity|].
  intros ss H. unfold committed in H. cbn in H.
  inversion H as [|? b m ss' ? N H']; subst. cbn in N. injection N as <- <-.
  inversion H' as [|? b m ss'' ? N H'']; subst; [reflexivity|discriminate].
Qed.

(** "😀" cut after three bytes: a panic. *)
Theorem C55_panic_refuted :
  exists chunks, utf8 (concat chunks)
    /\ load_utf8_all iterator_source (fun n => n) 2 (loader_new (validator_new chunks)) = Panic.
Proof.
  exists [[0xF0; 0x9F; 0x98]; [0x80]]%N. split; [|vm_compute; reflexivity].
  exists [0x1F600]%N. split; [constructor; [right; lia|constructor]|reflexivity].
Qed.

(** ** Cases meeting the hypotheses *)
(** "aあ😀" cut inside characters, with an empty chunk, over the ideal control. *)
Definition text_chunks : list (list byte) := [[0x61; 0xE3]; []; [0x81]; [0x82; 0xF0; 0x9F]; [0x98; 0x80]]%N.
Example C51_52_case :
  utf8 (concat text_chunks) /\
  exists rs v, next_all (vec_control byte (uerror Never)) iterator_source [tt; tt; tt; tt; tt; tt] (validator_new text_chunks) = Ret (rs, v)
    /\ map (passed_on (fun _ r => r)) rs = [[0x61]; []; []; [0xE3; 0x81; 0x82]; [0xF0; 0x9F; 0x98; 0x80]; []]%N.
Proof.
  split; [exists [0x61; 0x3042; 0x1F600]%N; split; [constructor; [left; lia|constructor; [left; lia|constructor; [right; lia|constructor]]]|reflexivity]|].
  let r := eval vm_compute in (next_all (vec_control byte (uerror Never)) iterator_source [tt; tt; tt; tt; tt; tt] (validator_new text_chunks)) in
  match r with Ret (?a, ?b) => exists a, b end.
  split; vm_compute; reflexivity.
Qed.
(** A stray continuation byte is reported once four bytes are there. *)
Example C53_case :
  exists rs v, next_all (vec_control byte (uerror Never)) iterator_source [tt; tt] (validator_new [[0x61; 0x80; 0x61; 0x61]; [0x61]]%N) = Ret (rs, v)
    /\ map (fun x => match x with (_, r, _, _) => r end) rs = [Delivered [0x61]%N; Rejected InvalidSequence].
Proof.
  let r := eval vm_compute in (next_all (vec_control byte (uerror Never)) iterator_source [tt; tt] (validator_new [[0x61; 0x80; 0x61; 0x61]; [0x61]]%N)) in
  match r with Ret (?a, ?b) => exists a, b end.
  split; vm_compute; reflexivity.
Qed.

Print Assumptions C51_valid.
Print Assumptions C51_conserved.
Print Assumptions C52_no_error.
Print Assumptions C52_all_passed_on.
Print Assumptions C52_chunks.
Print Assumptions C53_sound.
Print Assumptions C53_prompt.
Print Assumptions C53_exact.
Print Assumptions C54_silent_partial.
Print Assumptions C54_four_bytes_partial.
Print Assumptions C54_truncated_refuted.
Print Assumptions C55_safe_partial.
Print Assumptions C55_chunk_exact_partial.
Print Assumptions C55_lost_refuted.
Print Assumptions C55_panic_refuted.
