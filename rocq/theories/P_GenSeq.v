(** * P_GenSeq: properties C45-C50. *)
From Coq Require Import Lia.
From Verif Require Import M_GenSeq S_GenSeq L_GenSeq L_GenSeq2.

Lemma answers_pending {T} p (cs : list (bcall T)) rs p' : answers_all p cs rs p' -> p' = pending_of cs p.
Proof.
  induction 1 as [|p c r p1 cs rs p2 A AA IH]; cbn; auto.
  destruct c, r; cbn in A; try contradiction.
  - now subst.
  - destruct A as (_ & ->). auto.
  - destruct A as (_ & ->). auto.
Qed.

Lemma reached {T} fuel (cs : list (bcall T)) : length cs < fuel ->
  exists rs h tail b ss, gperform_all fuel cs gstart = Ret (rs, (h, tail, b))
    /\ answers_all [] cs rs (pending_of cs [])
    /\ chain h (head_node b) ss tail /\ off_ok (head_offset b) ss
    /\ pending_of cs [] = skipn (head_offset b) (concat ss) /\ length ss <= length cs.
Proof.
  intros F. destruct (gperform_all_ok fuel cs gstart [] 0 gwf_start F) as (rs & [[h tail] b] & p & E & A & ss & C & O & P & L).
  pose proof (answers_pending _ _ _ _ A) as Q. subst p. exists rs, h, tail, b, ss. rewrite <- Q. auto 10.
Qed.

Section C45_46.
  Context {T : Type}.

  (** ** C45: whatever calls are made, the buffer answers like a flat list. *)
  Theorem C45_flat_list (cs : list (bcall T)) fuel :
    length cs < fuel ->
    exists rs st, gperform_all fuel cs gstart = Ret (rs, st) /\ answers_all [] cs rs (pending_of cs []).
  Proof.
    intros F. destruct (reached fuel cs F) as (rs & h & tail & b & ss & E & A & _). eauto.
  Qed.

  (** Commits during an [advance] count as made before it ended. *)
  Theorem C45_advance_while_committing (cs : list (bcall T)) fuel rs h tail b n bs h2 tail2 b2 m :
    length cs + length bs < fuel ->
    gperform_all fuel cs gstart = Ret (rs, (h, tail, b)) ->
    adv_while h tail (adv_begin b n) bs h2 tail2 (b2, m) ->
    m = n - length (pending_of cs [] ++ concat bs) /\
    exists ss, gcollect fuel h2 (gsegments b2) = Ret ss /\ concat ss = skipn n (pending_of cs [] ++ concat bs).
  Proof.
    intros F R W. destruct (reached fuel cs) as (rs' & h' & tail' & b' & ss & E & A & C & O & P & L); [lia|].
    rewrite R in E. injection E as <- <- <- <-.
    destruct (adv_while_ok _ _ _ _ _ _ _ W ss C O) as (ss2 & C2 & O2 & A1 & A2). cbn in C2, O2, A1, A2.
    pose proof (chain_shorter _ _ _ _ _ _ _ W ss ss2 C C2) as LL.
    rewrite P. split; [exact A2|]. eexists. split; [apply (gcollect_ok h2 tail2 ss2); cbn; auto; lia|].
    cbn. rewrite queue_concat by auto. exact A1.
  Qed.

  (** [advance] never panics or loops, also while commits go on. *)
  Theorem C45_advance_goes_on (cs : list (bcall T)) fuel rs h tail b :
    length cs < fuel -> gperform_all fuel cs gstart = Ret (rs, (h, tail, b)) ->
    forall n bs, exists h2 tail2 r, adv_while h tail (adv_begin b n) bs h2 tail2 r.
  Proof.
    intros F R n bs. destruct (reached fuel cs F) as (rs' & h' & tail' & b' & ss & E & A & C & O & P & L).
    rewrite R in E. injection E as <- <- <- <-.
    assert (G : forall bs (h : heap T) tail ss a, chain h (ad_node a) ss tail -> off_ok (ad_offset a) ss ->
              exists h2 tail2 r, adv_while h tail a bs h2 tail2 r).
    { clear. induction bs as [|x bs IH]; intros h tail ss a C O.
      - destruct (adv_loop_ok h tail ss (S (length ss)) a C O) as (r & _ & W); [lia|]. eauto.
      - destruct (commit_ok _ _ _ _ x C) as (h' & t' & E & C').
        destruct (IH h' t' _ a C' (off_ok_app _ _ x O)) as (h2 & t2 & r & W).
        exists h2, t2, r. econstructor; eauto. }
    eapply G; [exact C|exact O].
  Qed.

  (** ** C46 *)
  Theorem C46_iterator_is_a_queue (cs : list (bcall T)) fuel rs h tail b :
    length cs < fuel -> gperform_all fuel cs gstart = Ret (rs, (h, tail, b)) ->
    exists q, gcollect fuel h (gsegments b) = Ret q /\ concat q = pending_of cs []
      /\ forall ics, iterate ics h tail (gsegments b) = Ret (queue_replies q ics).
  Proof.
    intros F R. destruct (reached fuel cs F) as (rs' & h' & tail' & b' & ss & E & A & C & O & P & L).
    rewrite R in E. injection E as <- <- <- <-.
    exists (queue_of (head_offset b) ss). split; [apply (gcollect_ok h tail ss fuel (gsegments b)); cbn; auto; lia|].
    split; [rewrite queue_concat by auto; now rewrite P|].
    intros ics. apply (iterate_ok ics h tail (gsegments b) ss); cbn; auto.
  Qed.
End C45_46.

Section C47.
  Context {T E G : Type} (src : source T E G).

  (** ** C47 *)
  Theorem C47_nothing_lost g cs rs l :
    load_all src cs (loader_new g) = Ret (rs, l) -> Forall not_cancelled rs ->
    exists ss, committed l ss /\ concat ss ++ items (ld_buf l) = concat (map (fun r => accepted (fst (snd r))) rs).
  Proof.
    intros R F. destruct (load_all_inv src cs _ _ _ _ _ (linv_new g) R) as (ss & xs & (C & H) & Q).
    exists ss. split; [exact C|]. rewrite (holds_items _ _ H). exact (Q F).
  Qed.

  Theorem C47_load_info g cs rs l grow info l' tr en :
    load_all src cs (loader_new g) = Ret (rs, l) ->
    load src grow l = Ret (ROk info, l', (tr, en)) ->
    exists ss new, committed l ss /\ committed l' (ss ++ new)
      /\ commited info = length (concat new)
      /\ uncommited info = length (items (ld_buf l'))
      /\ buffer_capacity info = vcap (ld_buf l')
      /\ uncommited info <= buffer_capacity info
      /\ (is_done info = true <-> en = EndFinish)
      /\ (is_done info = true -> uncommited info = 0 /\ buffer_capacity info = 0).
  Proof.
    intros R L. destruct (load_all_inv src cs _ _ _ _ _ (linv_new g) R) as (ss & xs & I & _).
    destruct (load_inv src grow l ss xs _ _ _ _ I L) as (ss' & xs' & (C' & H') & P).
    pose proof (holds_cap _ _ H') as HC. pose proof (holds_items _ _ H') as HI.
    exists ss. destruct en.
    - destruct P as (_ & new & -> & Q). injection Q as ->. exists new. cbn. rewrite HI.
      repeat split; auto; try apply I; discriminate.
    - destruct P as (_ & (e & Q) & _). discriminate.
    - destruct P as (-> & -> & B & -> & Q). injection Q as ->. exists [xs]. cbn. rewrite B, app_nil_r. cbn.
      repeat split; auto; try apply I.
    - destruct P as (_ & _ & (e & Q) & _). discriminate.
  Qed.

  (** The assertion in [commit_to] never fires: a load or forced commit panics
      only if the source's own use of the writer does. *)
  Theorem C47_commit_never_fails g cs rs l grow :
    load_all src cs (loader_new g) = Ret (rs, l) ->
    (exists l', force_commit l = Ret l') /\
    ((exists r, run_source (gcontrol T E grow) (ld_buf l) (src (ld_source l)) = Ret r) ->
     exists r, load src grow l = Ret r).
  Proof.
    intros R. destruct (load_all_inv src cs _ _ _ _ _ (linv_new g) R) as (ss & xs & I & _). split.
    - destruct (force_ok _ _ _ I) as (l' & E1 & _). eauto.
    - apply (load_total src grow l ss xs I).
  Qed.

  (** ** C50 *)
  (** A cancelled write that fitted in place, and a cancellation without a
      writer, leave everything as it was. *)
  Theorem C50_cancel_partial g cs rs l grow e l' tr en :
    load_all src cs (loader_new g) = Ret (rs, l) ->
    load src grow l = Ret (RErr e, l', (tr, en)) ->
    (forall n p, src (ld_source l) = SRequest n p -> n <= vcap (ld_buf l) - vlen (ld_buf l)) ->
    exists ss, committed l ss /\ committed l' ss /\ items (ld_buf l') = items (ld_buf l).
  Proof.
    intros R L FIT. destruct (load_all_inv src cs _ _ _ _ _ (linv_new g) R) as (ss & xs & I & _).
    destruct (load_inv src grow l ss xs _ _ _ _ I L) as (ss' & xs' & (C' & H') & P).
    exists ss. destruct I as (C & H). rewrite (holds_items _ _ H), (holds_items _ _ H').
    destruct en.
    - destruct P as (_ & new & _ & Q). discriminate.
    - destruct P as (-> & _ & n & p & S & ->). split; [auto|split; [auto|]].
      specialize (FIT n p S). rewrite (holds_len _ _ H) in FIT. now rewrite (proj2 (Nat.leb_le _ _)).
    - destruct P as (_ & _ & _ & _ & Q). discriminate.
    - destruct P as (-> & -> & _). auto.
  Qed.

  (** Otherwise all items buffered before are gone; the committed ones stay. *)
  Theorem C50_cancel_loses_partial g cs rs l grow e l' tr n p :
    load_all src cs (loader_new g) = Ret (rs, l) ->
    src (ld_source l) = SRequest n p -> vcap (ld_buf l) - vlen (ld_buf l) < n ->
    load src grow l = Ret (RErr e, l', (tr, EndCancel)) ->
    exists ss, committed l ss /\ committed l' ss /\ items (ld_buf l') = [].
  Proof.
    intros R S FIT L. destruct (load_all_inv src cs _ _ _ _ _ (linv_new g) R) as (ss & xs & I & _).
    destruct (load_inv src grow l ss xs _ _ _ _ I L) as (ss' & xs' & (C' & H') & P).
    exists ss. destruct I as (C & H). rewrite (holds_items _ _ H').
    destruct P as (-> & _ & n0 & p0 & S0 & ->). rewrite S in S0. injection S0 as <- <-.
    rewrite (holds_len _ _ H) in FIT. split; [auto|split; [auto|]].
    now rewrite (proj2 (Nat.leb_gt _ _)).
  Qed.
End C47.

(** A source that writes one item and then cancels a write of two. *)
Definition cancelling : source nat unit nat :=
  fun g => match g with
           | 0 => SRequest 1 (WPush 7 (fun _ => WAdvance 1))
           | _ => SRequest 2 (WPush 8 (fun _ => WCancel tt 2))
           end.

Theorem C50_cancel_refuted :
  exists (src : source nat unit nat) g grow rs l l' tr,
    (forall n, n <= grow n) /\
    load_all src [LLoad grow] (loader_new g) = Ret (rs, l) /\
    load src grow l = Ret (RErr tt, l', (tr, EndCancel)) /\
    items (ld_buf l) = [7] /\ items (ld_buf l') = [] /\ ld_heap l' = [None].
Proof.
  exists cancelling, 0, (fun n => n). eexists _, _, _, _.
  split; [auto|]. split; [reflexivity|]. split; [reflexivity|]. repeat split.
Qed.

(** ** C48 *)
Section C48.
  Context {T : Type}.

  (** Exactly what is committed when the source is loaded until it is done;
      there is never a panic or a write out of bounds. *)
  Theorem C48_commits_partial (chunks : list (list T)) grow :
    (forall n, n <= grow n) ->
    exists rs l ss, load_all iterator_source (repeat (LLoad grow) (length chunks + 1)) (loader_new chunks) = Ret (rs, l)
      /\ committed l ss /\ items (ld_buf l) = [] /\ concat ss = keeps grow 0 0 chunks
      /\ exists info rs0, rs = rs0 ++ [(ROk info, ([], EndFinish))] /\ is_done info = true.
  Proof.
    intros GR. destruct (load_chunks grow GR chunks _ [] [] (linv_new chunks) eq_refl)
      as (rs & l & ss & E & (C & H) & CC & D).
    exists rs, l, ss. split; [exact E|]. split; [exact C|]. split; [exact (holds_items _ _ H)|]. split; [exact CC|exact D].
  Qed.

  (** A chunk is kept whole when the free space is odd or at least twice its length. *)
  Theorem C48_kept_whole_partial spare (chunk : list T) :
    length chunk <= spare -> (kept spare chunk = chunk <-> Nat.Odd spare \/ 2 * length chunk <= spare).
  Proof.
    intros L. unfold kept. destruct (Nat.even spare) eqn:EV.
    - apply Nat.even_spec in EV. split.
      + intros Q. right. assert (LE : length (firstn (spare / 2) chunk) = length chunk) by now rewrite Q.
        rewrite firstn_length in LE. destruct EV as (q & ->).
        replace (2 * q / 2) with q in LE by (rewrite Nat.mul_comm, Nat.div_mul; lia). lia.
      + intros [OD|LE].
        * exfalso. apply (Nat.Even_Odd_False spare); auto.
        * apply firstn_all2. destruct EV as (q & ->).
          replace (2 * q / 2) with q by (rewrite Nat.mul_comm, Nat.div_mul; lia). lia.
    - split; auto. intros _. left. apply Nat.odd_spec. unfold Nat.odd. now rewrite EV.
  Qed.

  (** With a strategy that allocates exactly what is asked for, half of every
      even chunk that starts a buffer is lost. *)
  Theorem C48_half_lost_partial (chunk : list T) k :
    length chunk = 2 * k -> 0 < k ->
    exists rs l ss, load_all iterator_source (repeat (LLoad (fun n => n)) 2) (loader_new [chunk]) = Ret (rs, l)
      /\ committed l ss /\ concat ss = firstn k chunk.
  Proof.
    intros L K. destruct (C48_commits_partial [chunk] (fun n => n)) as (rs & l & ss & E & C & _ & CC & _); [auto|].
    exists rs, l, ss. split; [exact E|]. split; [exact C|]. rewrite CC. cbn [keeps].
    rewrite (proj2 (Nat.leb_gt _ _)) by lia. unfold kept. rewrite Nat.sub_0_r, L.
    assert (EV : Nat.even (2 * k) = true) by (apply Nat.even_spec; exists k; auto). rewrite EV, app_nil_r.
    f_equal. rewrite Nat.mul_comm, Nat.div_mul; lia.
  Qed.
End C48.

Theorem C48_lossless_refuted :
  exists (chunks : list (list nat)) grow rs l ss,
    (forall n, n <= grow n) /\
    load_all iterator_source (repeat (LLoad grow) (length chunks + 1)) (loader_new chunks) = Ret (rs, l) /\
    committed l ss /\ items (ld_buf l) = [] /\ concat ss <> concat chunks.
Proof.
  destruct (C48_commits_partial [[1; 2]] (fun n => n)) as (rs & l & ss & E & C & I & CC & _); [auto|].
  exists [[1; 2]], (fun n => n), rs, l, ss. repeat split; auto. rewrite CC. discriminate.
Qed.

(** ** C49 *)
Section C49.
  Context {T E : Type}.

  (** On a writer fresh from [request_writer] with [spare] free cells. *)
  Theorem C49_even_partial grow (v : vec T) xs n r (items : list T) :
    holds v xs -> request_writer grow v n = Ret r ->
    let spare := vcap (rbuf r) - roffset r in
    Nat.Even spare ->
    exists r', push_many (request_writer_ops T E) r items
      = Ret (r', repeat true (min (spare / 2) (length items)) ++ repeat false (length items - spare / 2))
      /\ as_slice (request_writer_ops T E) r' = Ret (firstn (spare / 2) items).
  Proof.
    intros H R spare EV. destruct (request_ok (T := T) grow v xs n H) as (r0 & R0 & CASE).
    rewrite R in R0. injection R0 as <-.
    assert (X : exists pre, rinv pre r [] /\ roffset r = length pre).
    { destruct CASE as [(_ & I & _)|(_ & I & _)]; eexists; split; try exact I; apply I. }
    destruct X as (pre & I & O). apply Nat.even_spec in EV. unfold spare in *. rewrite O in *.
    assert (LP : length pre <= vcap (rbuf r)).
    { destruct I as (HB & _). apply holds_cap in HB. now rewrite app_nil_r in HB. }
    destruct (push_many_even (E := E) items r pre [] I EV LP) as (r' & P & I'); [cbn; lia|].
    cbn [length] in P, I'. rewrite Nat.sub_0_r in P, I'. exists r'. split; [exact P|]. eapply r_slice. exact I'.
  Qed.

  Theorem C49_odd_partial grow (v : vec T) xs n r (items : list T) :
    holds v xs -> request_writer grow v n = Ret r ->
    let spare := vcap (rbuf r) - roffset r in
    Nat.Odd spare -> length items <= spare ->
    exists r', push_many (request_writer_ops T E) r items = Ret (r', map (fun _ => true) items)
      /\ as_slice (request_writer_ops T E) r' = Ret items.
  Proof.
    intros H R spare OD LE. destruct (request_ok (T := T) grow v xs n H) as (r0 & R0 & CASE).
    rewrite R in R0. injection R0 as <-.
    assert (X : exists pre, rinv pre r [] /\ roffset r = length pre).
    { destruct CASE as [(_ & I & _)|(_ & I & _)]; eexists; split; try exact I; apply I. }
    destruct X as (pre & I & O). unfold spare in *. rewrite O in *.
    assert (LP : length pre <= vcap (rbuf r)).
    { destruct I as (HB & _). apply holds_cap in HB. now rewrite app_nil_r in HB. }
    destruct (push_many_odd (E := E) items r pre [] I) as (r' & P & I').
    - apply Nat.odd_spec in OD. unfold Nat.odd in OD. now destruct (Nat.even (vcap (rbuf r) - length pre)).
    - rewrite app_nil_r. lia.
    - exists r'. split; [exact P|]. eapply r_slice. exact I'.
  Qed.

  (** Pushing one item more than there is room for writes out of bounds
      whenever the room is odd. *)
  Theorem C49_out_of_bounds_partial grow (v : vec T) xs n r (items : list T) :
    holds v xs -> request_writer grow v n = Ret r ->
    let spare := vcap (rbuf r) - roffset r in
    Nat.Odd spare -> spare < length items ->
    push_many (request_writer_ops T E) r items = UB.
  Proof.
    intros H R spare OD LE. destruct (request_ok (T := T) grow v xs n H) as (r0 & R0 & CASE).
    rewrite R in R0. injection R0 as <-.
    assert (X : exists pre, rinv pre r [] /\ roffset r = length pre).
    { destruct CASE as [(_ & I & _)|(_ & I & _)]; eexists; split; try exact I; apply I. }
    destruct X as (pre & I & O). unfold spare in *. rewrite O in *.
    apply (push_many_overflow (E := E) items r pre I); auto.
    apply Nat.odd_spec in OD. unfold Nat.odd in OD. now destruct (Nat.even (vcap (rbuf r) - length pre)).
  Qed.
End C49.

Theorem C49_out_of_bounds_refuted :
  exists (v : vec nat) n r items,
    holds v [] /\ request_writer (fun n => n) v n = Ret r /\
    push_many (request_writer_ops nat Never) r items = UB.
Proof.
  exists vec_new, 1. eexists. exists [1; 2]. split; [apply holds_new|]. split; reflexivity.
Qed.

(** ** Non-vacuity *)
Example buffer_example :
  gperform_all 10 [BCommit [1; 2; 3]; BAdvance 2; BCommit [4; 5]; BSegments; BAdvance 9] gstart
  = Ret ([RCommitted; RRemain 0; RCommitted; RSegments [[3]; [4; 5]]; RRemain 6],
         ([Some ([1; 2; 3], 1); Some ([4; 5], 2); None], 2, GBuffer 0 2)).
Proof. reflexivity. Qed.

Example iterator_example :
  iterate [INext; INext; ICommit [4; 5]; INext; INext] [Some ([1; 2; 3], 1); None] 1 (GIter 2 0)
  = Ret [Some [3]; None; Some [4; 5]; None].
Proof. reflexivity. Qed.

(** [advance] overtaken by a commit. *)
Example advance_example :
  adv_while [Some ([1; 2], 1); None] 1 (adv_begin (GBuffer 1 0) 2) [[3; 4]]
    [Some ([1; 2], 1); Some ([3; 4], 2); None] 2 (GBuffer 1 1, 0).
Proof.
  eapply aw_turn; [reflexivity|]. eapply aw_commit; [reflexivity|].
  apply (@aw_end nat _ 2 (Adv 1 0 1) (Adv 0 1 1)). reflexivity.
Qed.

(** Loads and a forced commit of a source that writes, shrinks and finishes. *)
Definition writing : source nat unit nat :=
  fun g => match g with
           | 0 => SRequest 3 (WPush 1 (fun _ => WFill [2; 3; 4] (fun _ => WShrink 2 (WAdvance 1))))
           | 1 => SRequest 4 (WPush 5 (fun _ => WSlice (fun s => WAdvance 2)))
           | _ => SFinish g
           end.
Example load_example :
  exists rs l, load_all writing [LLoad (fun _ => 8); LLoad (fun n => n); LForce; LLoad (fun n => n)] (loader_new 0) = Ret (rs, l)
    /\ Forall not_cancelled rs /\ ld_heap l = [Some ([1; 2; 5], 1); Some ([], 2); None]
    /\ map fst rs = [ROk (load_info_new 0 2 8); ROk (load_info_new 0 3 8); ROk (load_info_done 0)].
Proof.
  eexists _, _. split; [vm_compute; reflexivity|].
  split; [repeat (apply Forall_cons; [unfold not_cancelled; cbn; auto|]); constructor|]. split; reflexivity.
Qed.

Example kept_example : kept 3 [1; 2; 3] = [1; 2; 3] /\ kept 4 [1; 2] = [1; 2] /\ kept 4 [1; 2; 3] = [1; 2].
Proof. repeat split. Qed.

Print Assumptions C45_flat_list.
Print Assumptions C45_advance_while_committing.
Print Assumptions C45_advance_goes_on.
Print Assumptions C46_iterator_is_a_queue.
Print Assumptions C47_nothing_lost.
Print Assumptions C47_load_info.
Print Assumptions C47_commit_never_fails.
Print Assumptions C48_commits_partial.
Print Assumptions C48_kept_whole_partial.
Print Assumptions C48_half_lost_partial.
Print Assumptions C48_lossless_refuted.
Print Assumptions C49_even_partial.
Print Assumptions C49_odd_partial.
Print Assumptions C49_out_of_bounds_partial.
Print Assumptions C49_out_of_bounds_refuted.
Print Assumptions C50_cancel_partial.
Print Assumptions C50_cancel_loses_partial.
Print Assumptions C50_cancel_refuted.
