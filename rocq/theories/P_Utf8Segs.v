(** * P_Utf8Segs: every segment behind a validator is valid UTF-8 on its own, and what
    parsers answer on them while they are still being loaded, properties C55 and C109. *)
From Coq Require Import Lia.
From Verif Require Import L_Base L_Utf8Gen L_Utf8Run P_Utf8 P_Utf8Run.
From Verif Require Import S_Utf8Run S_Early L_Live L_LiveJoin L_LiveOwn L_EndToEnd P_Runner P_LiveJoin P_EndToEnd P_LiveOwn P_LiveFields P_Early P_Utf8Live.

Lemma while_itemwise {T} (wanted : T -> bool) : itemwise (while wanted).
Proof.
  destruct (while_honest wanted) as (H & S). split; [exact H|]. split; [exact S|].
  intros q. change (lk_init (while_looker ?w)) with (@nil T). rewrite !while_settle, one_each_concat. reflexivity.
Qed.
Lemma concat_utf8 ss : Forall utf8 ss -> utf8 (concat ss).
Proof. induction 1; [apply utf8_nil|now apply utf8_app]. Qed.

Lemma once_on {T} (eqb : T -> T -> bool) modulus {O E} (p : lparser T O E) ss x0 q late h r :
  decides_eq eqb -> itemwise p -> version x0 < modulus -> ahead (sh_heap x0) (sh_tail x0) buffer_new q -> ss = q ++ appended h ++ late ->
  runs eqb modulus p x0 buffer_new h r -> (done_flag (shared_of r) = true -> late = []) ->
  exists told taken rest, concat ss = taken ++ rest ++ concat late /\
    may_read eqb _ _ p false (concat ss) (answer r) (rest ++ concat late) told /\
    left_with (shared_of r) (buffer_of r) rest /\ (told = true -> done_flag (shared_of r) = true).
Proof.
  intros eq_ok IW V A LD R DL.
  destruct (run_early eqb eq_ok modulus _ _ _ _ _ _ _ R IW false q V A) as (_ & q' & t & A' & D & M); [discriminate|].
  specialize (M (concat late)). rewrite <- concat_app, <- app_assoc, <- LD in M.
  assert (X : done_flag (shared_of r) = true -> concat late = []) by (intros Y; now rewrite (DL Y)). specialize (M X).
  destruct (may_read_suffix eqb _ _ _ _ _ _ _ _ M) as (taken & S). exists t, taken, (concat q'). split; [exact S|]. split; [exact M|].
  split; [exists q'; auto|exact D].
Qed.

Section Load.
  Context {E G : Type} (src : source byte E G) (grow : nat -> nat).

  (** Also after an error: then the buffer is as before, or what it held is gone. *)
  Lemma load_utf8_valid (l : loader byte (validator G)) ss xs held i l' tr en : ulinv l ss xs held -> load_utf8 src grow l = Ret (i, l', (tr, en)) ->
    Forall utf8 ss -> utf8 xs -> exists ss' xs' held', ulinv l' ss' xs' held' /\ Forall utf8 ss' /\ utf8 xs'.
  Proof.
    intros (CO & HB & VI) H FS UX. unfold load_utf8 in H.
    assert (MORE : Forall utf8 (ss ++ [xs])) by (apply Forall_app; auto).
    apply bind_ret in H as ([[[[res buf] v1] tr0] en0] & H1 & H). cbn in H.
    pose proof (next_told (gcontrol byte (uerror E) grow) _ (grep_tracks xs (ld_buf l)) (ld_buf l) (grep_request grow _ _ HB) src _ _ _ _ _ _ VI H1) as N.
    assert (KEPT : forall (q : request byte) pre ys, roffset q = length pre ->
      (pre = xs /\ to_append q = vec_new \/ pre = [] /\ to_append q = ld_buf l) -> utf8 (firstn (roffset q) (pre ++ ys))).
    { intros q pre ys RO CS. rewrite RO, firstn_app, Nat.sub_diag, firstn_all, app_nil_r. destruct CS as [(-> & _)|(-> & _)]; [exact UX|apply utf8_nil]. }
    destruct en0.
    - destruct N as [(L3 & I' & q & vq & ys & RP & HD & CN)|(L3 & I' & q & vq & RP & HD & AD)].
      + destruct (grep_holds _ _ _ _ _ RP HD) as (pre & HR & RO & CS).
        cbn in CN. apply bind_ret in CN as (dv & DR & CN). injection CN as <- <-. injection H as <- <- <- <-.
        destruct (drain_ok _ _ (roffset q) HR) as (v' & DR' & HV & _); [rewrite RO, app_length; lia|].
        rewrite DR in DR'. injection DR' as <-.
        exists ss, (firstn (roffset q) (pre ++ ys)), held. split; [split; [exact CO|split; [exact HV|exact I']]|]. eauto.
      + destruct (grep_holds _ _ _ _ _ RP HD) as (pre & HR & RO & CS).
        set (ds := firstn _ _) in *. assert (UD : utf8 ds) by apply firstn_utf8.
        cbn in AD. destruct CS as [(-> & TA)|(-> & TA)]; rewrite TA in AD.
        * cbn in AD. injection AD as <- <-. injection H as <- <- <- <-.
          exists ss, (xs ++ ds). eexists. split; [split; [exact CO|split; [exact HR|exact I']]|]. split; [exact FS|now apply utf8_app].
        * rewrite (holds_len _ _ HB) in AD. cbn in HR. destruct (Nat.eqb_spec (length xs) 0) as [Z0|Z0].
          -- injection AD as <- <-. injection H as <- <- <- <-.
             exists ss, ds. eexists. split; [split; [exact CO|split; [exact HR|exact I']]|]. auto.
          -- injection AD as <- <-. rewrite (holds_items _ _ HB) in H.
             destruct (commit_ok _ _ _ _ xs CO) as (h' & t' & E1 & C'). rewrite E1 in H. cbn in H.
             injection H as <- <- <- <-.
             exists (ss ++ [xs]), ds. eexists. split; [split; [exact C'|split; [exact HR|exact I']]|]. auto.
    - destruct N as (I' & e & q & vq & ys & RP & HD & CN).
      destruct (grep_holds _ _ _ _ _ RP HD) as (pre & HR & RO & CS).
      cbn in CN. apply bind_ret in CN as (dv & DR & CN). injection CN as <- <-. injection H as <- <- <- <-.
      destruct (drain_ok _ _ (roffset q) HR) as (v' & DR' & HV & _); [rewrite RO, app_length; lia|].
      rewrite DR in DR'. injection DR' as <-.
      exists ss, (firstn (roffset q) (pre ++ ys)), held. split; [split; [exact CO|split; [exact HV|exact I']]|]. eauto.
    - destruct N as (FN & I' & _). cbn in FN. injection FN as <- <-.
      rewrite (holds_items _ _ HB), (holds_len _ _ HB) in H.
      destruct (commit_ok _ _ _ _ xs CO) as (h' & t' & E1 & C'). rewrite E1 in H. cbn in H. injection H as <- <- <- <-.
      exists (ss ++ [xs]), [], held. split; [split; [exact C'|split; [apply holds_new|exact I']]|]. split; [exact MORE|apply utf8_nil].
    - destruct N as (I' & e & CN). cbn in CN. injection CN as <- <-. injection H as <- <- <- <-.
      exists ss, xs, held. split; [split; [exact CO|split; [exact HB|exact I']]|]. auto.
  Qed.
  Lemma load_utf8_all_valid n : forall (l : loader byte (validator G)) ss xs held rs l', ulinv l ss xs held ->
    load_utf8_all src grow n l = Ret (rs, l') -> Forall utf8 ss -> utf8 xs ->
    exists ss' xs' held', ulinv l' ss' xs' held' /\ Forall utf8 ss' /\ utf8 xs'.
  Proof.
    induction n as [|n IH]; intros l ss xs held rs l' I H FS UX; cbn in H.
    - injection H as <- <-. eauto 8.
    - apply bind_ret in H as ([[i l1] [tr en]] & H1 & H). apply bind_ret in H as ([rs2 l2] & H2 & H). injection H as <- <-.
      destruct (load_utf8_valid _ _ _ _ _ _ _ _ I H1 FS UX) as (ss1 & xs1 & held1 & I1 & F1 & U1). eauto.
  Qed.
  (** An error changes no segment and none of the bytes held back; the buffer is as
      before or empty. *)
  Lemma load_utf8_error (l : loader byte (validator G)) ss xs held e l' tr en : ulinv l ss xs held -> load_utf8 src grow l = Ret (RErr e, l', (tr, en)) ->
    exists xs', ulinv l' ss xs' held /\ (xs' = xs \/ xs' = []).
  Proof.
    intros (CO & HB & VI) H. unfold load_utf8 in H.
    apply bind_ret in H as ([[[[res buf] v1] tr0] en0] & H1 & H). cbn in H.
    pose proof (next_told (gcontrol byte (uerror E) grow) _ (grep_tracks xs (ld_buf l)) (ld_buf l) (grep_request grow _ _ HB) src _ _ _ _ _ _ VI H1) as N.
    assert (KEPT : forall (q : request byte) pre ys, roffset q = length pre ->
      (pre = xs /\ to_append q = vec_new \/ pre = [] /\ to_append q = ld_buf l) -> firstn (roffset q) (pre ++ ys) = xs \/ firstn (roffset q) (pre ++ ys) = []).
    { intros q pre ys RO CS. rewrite RO, firstn_app, Nat.sub_diag, firstn_all, app_nil_r. destruct CS as [(-> & _)|(-> & _)]; auto. }
    destruct en0.
    - destruct N as [(L3 & I' & q & vq & ys & RP & HD & CN)|(L3 & I' & q & vq & RP & HD & AD)].
      + destruct (grep_holds _ _ _ _ _ RP HD) as (pre & HR & RO & CS).
        cbn in CN. apply bind_ret in CN as (dv & DR & CN). injection CN as <- <-. injection H as <- <- <- <-.
        destruct (drain_ok _ _ (roffset q) HR) as (v' & DR' & HV & _); [rewrite RO, app_length; lia|].
        rewrite DR in DR'. injection DR' as <-.
        exists (firstn (roffset q) (pre ++ ys)). split; [split; [exact CO|split; [exact HV|exact I']]|]. eauto.
      + exfalso. destruct (grep_holds _ _ _ _ _ RP HD) as (pre & HR & RO & CS).
        cbn in AD. destruct CS as [(-> & TA)|(-> & TA)]; rewrite TA in AD.
        * cbn in AD. injection AD as <- <-. discriminate.
        * rewrite (holds_len _ _ HB) in AD. destruct (Nat.eqb_spec (length xs) 0) as [Z0|Z0]; injection AD as <- <-; [discriminate|].
          rewrite (holds_items _ _ HB) in H. destruct (commit_ok _ _ _ _ xs CO) as (h' & t' & E1 & C'). rewrite E1 in H. discriminate.
    - destruct N as (I' & e' & q & vq & ys & RP & HD & CN).
      destruct (grep_holds _ _ _ _ _ RP HD) as (pre & HR & RO & CS).
      cbn in CN. apply bind_ret in CN as (dv & DR & CN). injection CN as <- <-. injection H as <- <- <- <-.
      destruct (drain_ok _ _ (roffset q) HR) as (v' & DR' & HV & _); [rewrite RO, app_length; lia|].
      rewrite DR in DR'. injection DR' as <-.
      exists (firstn (roffset q) (pre ++ ys)). split; [split; [exact CO|split; [exact HV|exact I']]|]. eauto.
    - exfalso. destruct N as (FN & I' & _). cbn in FN. injection FN as <- <-.
      rewrite (holds_items _ _ HB) in H. destruct (commit_ok _ _ _ _ xs CO) as (h' & t' & E1 & C'). rewrite E1 in H. discriminate.
    - destruct N as (I' & e' & CN). cbn in CN. injection CN as <- <-. injection H as <- <- <- <-.
      exists xs. split; [split; [exact CO|split; [exact HB|exact I']]|]. auto.
  Qed.
End Load.

(** ** C55 *)
(** Whatever the source and the growth of the buffer, after any number of loads and
    also after errors: each segment in the sequence is valid UTF-8 on its own, and so
    is what waits in the buffer of the loader. *)
Theorem C55_segments_valid {E G} (src : source byte E G) grow g n rs l ss :
  load_utf8_all src grow n (loader_new (validator_new g)) = Ret (rs, l) -> committed l ss ->
  Forall utf8 ss /\ exists xs, holds (ld_buf l) xs /\ utf8 xs.
Proof.
  intros H C. destruct (load_utf8_all_valid src grow n _ _ _ _ _ _ (ulinv_new g) H (Forall_nil _) utf8_nil) as (ss' & xs & held & (C' & HB & _) & F & U).
  destruct (chain_unique _ _ _ _ _ _ C C') as (-> & _). eauto.
Qed.

(** An error, of the source or the validator, in any state: no segment changes and
    the same bytes are held back, but the buffer of the loader is as before or empty. *)
Theorem C55_after_error_partial {E G} (src : source byte E G) grow g n rs l ss e l' tr en :
  load_utf8_all src grow n (loader_new (validator_new g)) = Ret (rs, l) -> committed l ss ->
  load_utf8 src grow l = Ret (RErr e, l', (tr, en)) ->
  committed l' ss /\
  firstn (buffered (ld_source l')) (rest (ld_source l')) = firstn (buffered (ld_source l)) (rest (ld_source l)) /\
  exists xs xs', holds (ld_buf l) xs /\ holds (ld_buf l') xs' /\ (xs' = xs \/ xs' = []).
Proof.
  intros H C L. destruct (load_utf8_all_valid src grow n _ _ _ _ _ _ (ulinv_new g) H (Forall_nil _) utf8_nil) as (ss' & xs & held & I & _ & _).
  destruct (load_utf8_error src grow _ _ _ _ _ _ _ _ I L) as (xs' & (C' & HB' & (D' & _)) & X). destruct I as (C0 & HB & (D & _)).
  destruct (chain_unique _ _ _ _ _ _ C C0) as (-> & _). split; [exact C'|]. split; [now rewrite D, D'|]. eauto.
Qed.
(** It can be empty: "a" has been taken without an error.  The next chunk is not
    valid; the source goes on with "b"; and "a" is nowhere, although all segments
    and what is in the buffer are valid. *)
Theorem C55_error_loses_refuted : exists i1 i2 e tr2 l1 l2 l,
  load_utf8 iterator_source odd_up (loader_new (validator_new [[0x61]; [0xFF; 0xFF; 0xFF; 0xFF; 0xFF]; [0x62]]%N)) = Ret (ROk i1, l1, ([PushOk 0x61%N], EndAdvance)) /\
  holds (ld_buf l1) [0x61]%N /\
  load_utf8 iterator_source odd_up l1 = Ret (RErr e, l2, tr2) /\
  load_utf8_all iterator_source odd_up 2 l2 = Ret (i2, l) /\ Forall load_ok i2 /\
  committed l [[0x62]]%N.
Proof.
  do 7 eexists. split; [vm_compute; reflexivity|]. split; [eexists; split; [reflexivity|reflexivity]|].
  split; [vm_compute; reflexivity|]. split; [vm_compute; reflexivity|].
  split; [repeat (constructor; [eexists; reflexivity|]); constructor|].
  eapply chain_node; [reflexivity|]. now constructor.
Qed.

(** ** C109 *)
(** Whoever asks for the segments of such a sequence, whenever: each that is handed
    out is valid UTF-8. *)
Theorem C109_seen_valid {E G} (src : source byte E G) grow g n rs l modulus x0 q s late :
  load_utf8_all src grow n (loader_new (validator_new g)) = Ret (rs, l) ->
  version x0 < modulus -> ahead (sh_heap x0) (sh_tail x0) buffer_new q ->
  sreach modulus x0 buffer_new s -> committed l (q ++ appended (s_hist s) ++ late) ->
  Forall utf8 (returned (s_hist s)).
Proof.
  intros H V A R C. destruct (C55_segments_valid src grow g n rs l _ H C) as (F & _).
  destruct (C56_in_order modulus x0 buffer_new q V A s R) as (c & P).
  rewrite app_assoc, <- P, <- app_assoc in F. apply Forall_app in F. apply F.
Qed.

(** A parser that takes all there is never takes part of a character, also when it is
    told of the end too early; and so what is left is text. *)
Theorem C109_all_valid {E G} (src : source byte E G) grow g n rs l modulus x0 q h o x b late :
  load_utf8_all src grow n (loader_new (validator_new g)) = Ret (rs, l) ->
  version x0 < modulus -> ahead (sh_heap x0) (sh_tail x0) buffer_new q -> committed l (q ++ appended h ++ late) ->
  runs N.eqb modulus (while (fun _ => true)) x0 buffer_new h (Took o x b) ->
  utf8 o /\ exists rest, left_with x b rest /\ utf8 rest.
Proof.
  intros H V A C R. destruct (C55_segments_valid src grow g n rs l _ H C) as (F & _).
  destruct (while_honest (fun _ : byte => true)) as (HO & ST).
  pose proof (run_look_inv N.eqb modulus _ _ _ _ _ R) as PR.
  destruct (own_answer modulus _ x0 buffer_new q V A HO h _ PR) as (_ & add1 & add2 & s & EA & P & q' & A' & S').
  assert (RD : reads N.eqb (while (fun _ => true)) (concat (q ++ add1)) = (ROk o, concat s)).
  { apply (reads_of N.eqb bytes_eq_ok); [apply while_itemwise|exact P]. }
  rewrite while_reads, leading_all, skipn_all in RD by (clear; induction (concat (q ++ add1)); auto). injection RD as <- RD.
  rewrite EA, <- app_assoc, app_assoc in F. apply Forall_app in F as (F1 & F2). apply Forall_app in F2 as (F2 & _).
  split; [now apply concat_utf8|]. exists (concat q'). split; [exists q'; auto|].
  rewrite (concat_same _ _ S'), concat_app, <- RD. now apply concat_utf8.
Qed.

(** Whatever parser: the answer is one it may give on all that the validator lets
    through if one primitive parser in it is told of the end too early; and what is
    left is the rest of that text. *)
Theorem C109_once_partial modulus {O E} (p : lparser byte O E) chunks grow ss x0 q late h r :
  itemwise p -> (forall n, n <= grow n) -> validated grow chunks ss ->
  version x0 < modulus -> ahead (sh_heap x0) (sh_tail x0) buffer_new q -> ss = q ++ appended h ++ late ->
  runs N.eqb modulus p x0 buffer_new h r -> (done_flag (shared_of r) = true -> late = []) ->
  exists t told taken rest, keeps_utf8 grow 0 [] chunks = Some t /\ utf8 t /\ t = taken ++ rest ++ concat late /\
    may_read N.eqb _ _ p false t (answer r) (rest ++ concat late) told /\
    left_with (shared_of r) (buffer_of r) rest /\ (told = true -> done_flag (shared_of r) = true).
Proof.
  intros IW grows LO V A LD R DL. pose proof (validated_text grow chunks ss grows LO) as K.
  destruct (once_on N.eqb modulus p ss x0 q late h r bytes_eq_ok IW V A LD R DL) as (told & taken & rest & S & M & LW & D).
  exists (concat ss), told, taken, rest. split; [exact K|]. split; [exact (keeps_utf8_valid _ _ _ _ _ K)|auto].
Qed.
(** From before the loader says that it is done: the answer on all of that text,
    also when it is a failure or the success of a parser that asks for more. *)
Theorem C109_before_done_partial modulus {O E} (p : lparser byte O E) chunks grow ss x0 q late h r :
  itemwise p -> (forall n, n <= grow n) -> validated grow chunks ss ->
  version x0 < modulus -> ahead (sh_heap x0) (sh_tail x0) buffer_new q -> ss = q ++ appended h ++ late ->
  runs N.eqb modulus p x0 buffer_new h r -> done_flag (shared_of r) = false ->
  exists t rest, keeps_utf8 grow 0 [] chunks = Some t /\ utf8 t /\
    reads N.eqb p t = (answer r, rest ++ concat late) /\ left_with (shared_of r) (buffer_of r) rest.
Proof.
  intros IW grows LO V A LD R ND.
  destruct (C109_once_partial modulus p chunks grow ss x0 q late h r IW grows LO V A LD R) as (t & told & taken & rest & K & U & _ & M & LW & D); [congruence|].
  exists t, rest. split; [exact K|]. split; [exact U|]. split; [|exact LW].
  apply (may_read_whole N.eqb _ _ _ _ _ _ _ _ M). destruct told; [|reflexivity]. rewrite D in ND by reflexivity. discriminate.
Qed.

(** ** Cases *)
(** "a" and "あ" in two chunks, in two segments.  A parser that takes all there is
    has got the "a" only: whole characters. *)
Example C109_case_early : exists rs l h r,
  load_utf8_all iterator_source odd_up 3 (loader_new (validator_new [[0x61]; [0xE3; 0x81; 0x82]]%N)) = Ret (rs, l) /\
  committed l ([] ++ appended h ++ []) /\
  runs N.eqb 1 (while (fun _ => true)) (fresh [None] 0) buffer_new h r /\ answer r = ROk [0x61]%N /\
  left_with (shared_of r) (buffer_of r) [0xE3; 0x81; 0x82]%N /\ done_flag (shared_of r) = true.
Proof.
  pose proof (while_itemwise (fun _ : byte => true)) as IW.
  destruct (C110_reached N.eqb 1 (while_looker (fun _ : byte => true)) Nat.lt_0_1 IW [0x61]%N [0xE3; 0x81; 0x82]%N [0x61]%N eq_refl) as (h & r & R & AP & D & AN & LW).
  eexists _, _, h, r. split; [vm_compute; reflexivity|]. split.
  { pose proof (AP : @appended byte h = _) as AB. change (@appended N h) with (@appended byte h) in *. rewrite AB. eapply chain_node; [reflexivity|]. eapply chain_node; [reflexivity|]. now constructor. }
  split; [exact R|]. split; [exact AN|]. split; [exact LW|exact D].
Qed.
(** An error in between: 0xFF and three more in a chunk of their own are not let
    through, and "b" after it is. *)
Example C55_case_error : exists rs l,
  load_utf8_all iterator_source odd_up 4 (loader_new (validator_new [[0x61]; [0xFF; 0xFF; 0xFF; 0xFF; 0xFF]; [0x62]]%N)) = Ret (rs, l) /\
  ~ Forall load_ok rs /\ exists ss, committed l ss /\ In 0x62%N (concat ss).
Proof.
  eexists _, _. split; [vm_compute; reflexivity|]. split.
  - intros F. inversion F as [|? ? _ F1]; subst. inversion F1 as [|? ? (i & X) _]; subst. discriminate.
  - eexists. split; [repeat (eapply chain_node; [reflexivity|]); now constructor|]. vm_compute. auto.
Qed.

Print Assumptions C55_segments_valid.
Print Assumptions C55_after_error_partial.
Print Assumptions C55_error_loses_refuted.
Print Assumptions C109_seen_valid.
Print Assumptions C109_all_valid.
Print Assumptions C109_once_partial.
Print Assumptions C109_before_done_partial.
