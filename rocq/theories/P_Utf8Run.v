(** * P_Utf8Run: which buffers lose nothing, and all chunks of a source through a
    validator, properties C48 and C55. *)
From Coq Require Import Lia.
From Verif Require Import L_Base L_Utf8Gen L_Utf8Run P_GenSeq.
From Verif Require Import S_Utf8Run.

(** ** C48 *)
(** The plain loader loses nothing, whatever the chunks, exactly if the buffer
    grows to the least odd number. *)
Theorem C48_growth_partial {T} (a : T) grow : (forall n, n <= grow n) ->
  ((forall chunks rs (l : loader T (list (list T))) ss,
      load_all iterator_source (repeat (LLoad grow) (length chunks + 1)) (loader_new chunks) = Ret (rs, l) ->
      committed l ss -> concat ss = concat chunks)
   <-> odd_growth grow).
Proof.
  intros GR. split.
  - intros H. apply (growth_lost grow a GR). intros chunks _.
    destruct (C48_commits_partial chunks grow GR) as (rs & l & ss & E & C & _ & CC & _). rewrite <- CC. eauto.
  - intros OG chunks rs l ss E C.
    destruct (C48_commits_partial chunks grow GR) as (rs' & l' & ss' & E' & C' & _ & CC & _).
    rewrite E in E'. injection E' as <- <-. destruct (chain_unique _ _ _ _ _ _ C C') as (-> & _).
    rewrite CC. now apply keeps_odd_growth.
Qed.
(** There are such, and doubling is not one. *)
Example C48_growth_cases : odd_growth odd_up /\ (forall n, n <= odd_up n) /\ ~ odd_growth (fun n => 2 * n).
Proof.
  split; [split; [left; reflexivity|auto]|]. split; [intros n; unfold odd_up; destruct (Nat.even n); lia|].
  intros (_ & H). specialize (H 2 (le_n _)). discriminate.
Qed.

(** ** C55 *)
(** What is committed when all chunks are loaded, or that this panics or reports an error. *)
Theorem C55_run_partial grow chunks : (forall n, n <= grow n) ->
  match keeps_utf8 grow 0 [] chunks with
  | Some t => exists rs l ss,
      load_utf8_all iterator_source grow (length chunks + 1) (loader_new (validator_new chunks)) = Ret (rs, l)
      /\ Forall load_ok rs /\ committed l ss /\ concat ss = t /\ utf8 t
      /\ exists info rs0, rs = rs0 ++ [(ROk info, ([], EndFinish))] /\ is_done info = true
  | None => forall ss, ~ validated grow chunks ss
  end.
Proof.
  intros GR. pose proof (load_utf8_run grow GR chunks _ [] [] [] (ulinv_new chunks) eq_refl) as H.
  change (vcap (ld_buf (loader_new (validator_new chunks))) - @length byte []) with 0 in H.
  destruct (keeps_utf8 grow 0 [] chunks) as [t|] eqn:K.
  - destruct H as (rs & l & ss & E & F & C & EQ & info & rs0 & LA & D). cbn [concat app] in EQ.
    exists rs, l, ss. repeat (split; [assumption|]). split; [exact (keeps_utf8_valid _ _ _ _ _ K)|eauto].
  - intros ss (rs & l & E & F & _). exact (H rs l E F).
Qed.

Lemma validated_text grow chunks ss : (forall n, n <= grow n) -> validated grow chunks ss ->
  keeps_utf8 grow 0 [] chunks = Some (concat ss).
Proof.
  intros GR V. pose proof (C55_run_partial grow chunks GR) as H.
  destruct (keeps_utf8 grow 0 [] chunks) as [t|]; [|now apply H in V].
  destruct V as (rs & l & E & _ & C), H as (rs' & l' & ss' & E' & _ & C' & <- & _).
  rewrite E in E'. injection E' as <- <-. now destruct (chain_unique _ _ _ _ _ _ C C') as (-> & _).
Qed.
Lemma text_validated grow chunks t : (forall n, n <= grow n) -> keeps_utf8 grow 0 [] chunks = Some t ->
  exists ss, validated grow chunks ss /\ concat ss = t.
Proof.
  intros GR K. pose proof (C55_run_partial grow chunks GR) as H. rewrite K in H.
  destruct H as (rs & l & ss & E & F & C & CC & _). exists ss. split; [exists rs, l; auto|exact CC].
Qed.

Lemma letters_plain grow chunks : (forall n, n <= grow n) -> Forall (fun x => x = 0x61%N) (concat chunks) ->
  utf8 (concat chunks) /\ Forall utf8 chunks /\ keeps_utf8 grow 0 [] chunks = Some (keeps grow 0 0 chunks).
Proof.
  intros GR F.
  assert (A : forall c, Forall (fun x => x = 0x61%N) c -> utf8 c).
  { intros c FC. exists c. split.
    - eapply Forall_impl; [|exact FC]. intros x ->. left. lia.
    - clear - FC. induction FC as [|x c -> FC IH]; [reflexivity|]. cbn. now rewrite <- IH. }
  assert (IN1 : forall c, In c chunks -> Forall (fun x => x = 0x61%N) c).
  { intros c IN. rewrite Forall_forall in *. intros x IX. apply F, in_concat. eauto. }
  split; [now apply A|]. split; [apply Forall_forall; auto|].
  refine (keeps_utf8_plain grow chunks GR _ 0 0 (le_n _)). intros n. apply Forall_forall. intros c IN.
  apply in_map_iff in IN as (c0 & <- & IN). apply A. specialize (IN1 c0 IN). rewrite Forall_forall in *.
  intros x IX. apply IN1. rewrite <- (firstn_skipn n c0). apply in_or_app. auto.
Qed.

(** When every chunk ends where a character does, the validator loses nothing,
    whatever the chunks, exactly if the buffer grows to the least odd number. *)
Theorem C55_whole_partial grow : (forall n, n <= grow n) ->
  ((forall chunks, Forall utf8 chunks -> exists ss, validated grow chunks ss /\ concat ss = concat chunks)
   <-> odd_growth grow).
Proof.
  intros GR. split.
  - intros H. apply (growth_lost grow 0x61%N GR). intros chunks F.
    destruct (letters_plain grow chunks GR F) as (_ & U & K).
    destruct (H chunks U) as (ss & V & CC). apply (validated_text grow chunks ss GR) in V. rewrite V in K.
    injection K as K. transitivity (concat ss); [symmetry; exact K|exact CC].
  - intros OG chunks F. apply (text_validated grow chunks _ GR). apply keeps_utf8_odd; auto.
Qed.

(** But no growth makes it lossless on all texts: for each there are chunks of valid
    text that are not committed without an error and in full. *)
Theorem C55_every_growth_refuted grow : (forall n, n <= grow n) ->
  exists chunks, utf8 (concat chunks) /\ forall ss, validated grow chunks ss -> concat ss <> concat chunks.
Proof.
  intros GR.
  set (emoji := [[0xF0; 0x9F; 0x98]; [0x80]]%N : list (list byte)).
  (** Unless it is cut as [emoji] is, one of these loses something. *)
  assert (CASES : (exists n, 1 <= n /\ n + 2 <= grow n) \/ grow 3 = 4 \/ grow 3 = 3 /\ grow 4 <= 5).
  { destruct (Nat.le_gt_cases 5 (grow 3)); [left; exists 3; lia|].
    destruct (Nat.le_gt_cases 6 (grow 4)); [left; exists 4; lia|]. pose proof (GR 3). lia. }
  assert (PLAIN : forall chunks, Forall (fun x => x = 0x61%N) (concat chunks) ->
      utf8 (concat chunks) /\ forall ss, validated grow chunks ss -> concat ss = keeps grow 0 0 chunks).
  { intros chunks F. destruct (letters_plain grow chunks GR F) as (U & _ & K). split; [exact U|].
    intros ss V. apply (validated_text grow chunks ss GR) in V. rewrite V in K. now injection K as K. }
  destruct CASES as [(n & N1 & N2)|[G3|(G3 & G4)]].
  - exists (overfull 0x61%N n (grow n)). pose proof (overfull_lost grow 0x61%N n N1 N2) as L.
    destruct (PLAIN (overfull 0x61%N n (grow n))) as (U & K); [|split; [exact U|]; intros ss V; rewrite (K ss V); intros X; apply (f_equal (@length byte)) in X; exact (Nat.lt_neq _ _ L X)].
    apply Forall_forall. intros x IN. apply in_concat in IN as (c & IN & IX).
    destruct IN as [<-|IN]; [exact (repeat_spec _ _ _ IX)|]. apply in_app_or in IN as [IN|[<-|[]]].
    + apply repeat_spec in IN. subst c. now destruct IX as [<-|[]].
    + now destruct IX as [<-|[<-|[]]].
  - exists [[0x61; 0x61; 0x61]%N]. destruct (PLAIN [[0x61; 0x61; 0x61]%N]) as (U & K); [repeat constructor|].
    split; [exact U|]. intros ss V. rewrite (K ss V). cbn. rewrite G3. discriminate.
  - exists emoji. split; [exists [0x1F600]%N; split; [constructor; [right; lia|constructor]|reflexivity]|].
    intros ss V. exfalso. apply (validated_text grow emoji ss GR) in V.
    cbn [keeps_utf8 emoji length Nat.add] in V. change (3 <=? 0) with false in V. cbv iota zeta in V. rewrite G3 in V.
    change (kept_utf8 3 0 [0xF0; 0x9F; 0x98]%N) with (Some [0xF0; 0x9F; 0x98]%N) in V. cbv iota beta in V.
    change ([] ++ [0xF0; 0x9F; 0x98]%N) with [0xF0; 0x9F; 0x98]%N in V.
    change (valid_up_to [0xF0; 0x9F; 0x98]%N) with 0 in V. cbn [skipn length Nat.add] in V.
    change (3 <=? 3) with true in V. change (4 <=? 3 - 0) with false in V. cbv iota in V.
    unfold kept_utf8 in V. rewrite (proj2 (Nat.ltb_lt (grow 4) (2 * 3))) in V by lia. discriminate.
Qed.

(** "aあ😀" in chunks of whole characters, with an odd buffer. *)
Example C55_whole_case :
  let chunks := [[0x61; 0xE3; 0x81; 0x82]; []; [0xF0; 0x9F; 0x98; 0x80]]%N in
  exists ss, validated odd_up chunks ss /\ concat ss = concat chunks /\ Forall utf8 chunks.
Proof.
  cbv zeta. set (chunks := [_; _; _]).
  assert (F : Forall utf8 chunks).
  { constructor; [|constructor; [apply utf8_nil|constructor; [|constructor]]].
    - exists [0x61; 0x3042]%N. split; [constructor; [left; lia|constructor; [left; lia|constructor]]|reflexivity].
    - exists [0x1F600]%N. split; [constructor; [right; lia|constructor]|reflexivity]. }
  destruct C48_growth_cases as (OG & GR & _).
  destruct (proj2 (C55_whole_partial odd_up GR) OG chunks F) as (ss & V & CC). eauto.
Qed.
Example C55_run_cases :
  keeps_utf8 odd_up 0 [] [[0x61; 0xE3]; [0x81; 0x82]]%N = Some [0x61; 0xE3; 0x81; 0x82]%N
  /\ keeps_utf8 (fun n => n) 0 [] [[0xE3]; [0x81]; [0x82]]%N = Some []
  /\ keeps_utf8 odd_up 0 [] [[0xF0; 0x9F; 0x98]; [0x80]]%N = None
  /\ keeps_utf8 odd_up 0 [] [[0x80; 0x80; 0x80; 0x80; 0x80]]%N = None.
Proof. repeat split. Qed.

Print Assumptions C48_growth_partial.
Print Assumptions C55_run_partial.
Print Assumptions C55_whole_partial.
Print Assumptions C55_every_growth_refuted.
