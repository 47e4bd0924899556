(** * P_Utf8Live: from the bytes of a source, through a validator and the loader, to
    the answer of a parser that runs beside it, property C109. *)
From Coq Require Import Lia.
From Verif Require Import L_Base L_Utf8Gen L_Utf8Run P_Utf8Run.
From Verif Require Import S_Utf8Run S_EndToEnd S_LiveJoinEnds L_Live L_LiveJoin L_LiveOwn L_EndToEnd P_LiveJoin P_EndToEnd P_LiveOwn.

Lemma bytes_eq_ok : decides_eq N.eqb.
Proof. intros a b. apply N.eqb_eq. Qed.

Section Live.
  Variable modulus : nat.
  Context {O E : Type} (p : lparser byte O E).
  Variables (chunks : list (list byte)) (grow : nat -> nat) (ss : list (list byte)).
  Hypothesis grows : forall n, n <= grow n.
  Hypothesis loaded : validated grow chunks ss.
  Hypothesis no_cut : uncut N.eqb p ss.

  (** While the loader runs: a success is the success on all that the validator
      lets through, which is valid text, and the sequence is left where it should be. *)
  Theorem C109_took_partial x0 q late h o x b : well_made p -> version x0 < modulus ->
    ahead (sh_heap x0) (sh_tail x0) buffer_new q -> ss = q ++ appended h ++ late ->
    runs N.eqb modulus p x0 buffer_new h (Took o x b) ->
    exists t rest, keeps_utf8 grow 0 [] chunks = Some t /\ utf8 t /\
      reads N.eqb p t = (ROk o, rest ++ concat late) /\ left_with x b rest.
  Proof.
    intros NE V A LO R. pose proof (validated_text grow chunks ss grows loaded) as K.
    destruct (took_text N.eqb bytes_eq_ok modulus p NE ss no_cut x0 q late h V A LO o x b R) as (rest & RD & LW).
    exists (concat ss), rest. split; [exact K|]. split; [exact (keeps_utf8_valid _ _ _ _ _ K)|auto].
  Qed.

  (** Once it is done there is an answer, and it is that on all that was let through. *)
  Theorem C109_done_partial x0 : all_honest p -> version x0 < modulus ->
    ahead (sh_heap x0) (sh_tail x0) buffer_new ss -> done_flag x0 = true ->
    exists t, keeps_utf8 grow 0 [] chunks = Some t /\ utf8 t /\
    (exists h r, runs N.eqb modulus p x0 buffer_new h r) /\
    forall h r, runs N.eqb modulus p x0 buffer_new h r ->
    match r with
    | Took o x b => exists rest, reads N.eqb p t = (ROk o, rest) /\ left_with x b rest
    | Failed e x b => exists rest, reads N.eqb p t = (RErr e, rest) /\ left_with x b rest
    end.
  Proof.
    intros HO V A D. pose proof (validated_text grow chunks ss grows loaded) as K.
    exists (concat ss). split; [exact K|]. split; [exact (keeps_utf8_valid _ _ _ _ _ K)|].
    exact (own_text N.eqb modulus p ss x0 bytes_eq_ok HO no_cut V A D).
  Qed.
End Live.

(** When chunks end where characters do and the buffer grows to the least odd
    number, the answer is that on the bytes of the source. *)
Theorem C109_whole_partial modulus {O E} (p : lparser byte O E) chunks grow ss x0 :
  (forall n, n <= grow n) -> odd_growth grow -> Forall utf8 chunks -> validated grow chunks ss ->
  all_honest p -> uncut N.eqb p ss -> version x0 < modulus ->
  ahead (sh_heap x0) (sh_tail x0) buffer_new ss -> done_flag x0 = true ->
  (exists h r, runs N.eqb modulus p x0 buffer_new h r) /\
  forall h r, runs N.eqb modulus p x0 buffer_new h r ->
  match r with
  | Took o x b => exists rest, reads N.eqb p (concat chunks) = (ROk o, rest) /\ left_with x b rest
  | Failed e x b => exists rest, reads N.eqb p (concat chunks) = (RErr e, rest) /\ left_with x b rest
  end.
Proof.
  intros GR OG F L HO U V A D.
  destruct (C109_done_partial modulus p chunks grow ss GR L U x0 HO V A D) as (t & K & _ & H).
  rewrite (keeps_utf8_odd grow chunks OG F 0) in K by lia. injection K as <-. exact H.
Qed.

(** But whatever the growth of the buffer there is a text that no parser reads back
    from it: a load of it panics or reports an error, or once the loader is done one
    that takes all there is does not get that text. *)
Theorem C109_read_back_refuted modulus grow : (forall n, n <= grow n) ->
  exists chunks, utf8 (concat chunks) /\
    forall ss x0 h o x b, validated grow chunks ss -> version x0 < modulus ->
    ahead (sh_heap x0) (sh_tail x0) buffer_new ss -> done_flag x0 = true ->
    runs N.eqb modulus (while (fun _ => true)) x0 buffer_new h (Took o x b) -> o <> concat chunks.
Proof.
  intros GR. destruct (C55_every_growth_refuted grow GR) as (chunks & U & H). exists chunks. split; [exact U|].
  intros ss x0 h o x b VA V A D R.
  destruct (own_text N.eqb modulus (while (fun _ => true)) ss x0 bytes_eq_ok (while_honest _)
    (while_uncut N.eqb _ ss) V A D) as (_ & ALL).
  destruct (ALL _ _ R) as (rest & RD & _). rewrite while_reads in RD. injection RD as <- _.
  rewrite leading_all; [exact (H ss VA)|]. apply forallb_forall. auto.
Qed.

(** A clean load is all the runner's sequence needs. *)
Lemma validated_start grow chunks ss : validated grow chunks ss -> exists x0 : @shared byte,
  version x0 = 0 /\ done_flag x0 = true /\ ahead (sh_heap x0) (sh_tail x0) buffer_new ss.
Proof.
  intros (rs & l & _ & _ & C). exists (Shared (ld_heap l) (ld_tail l) 0 true false 0 false).
  split; [reflexivity|]. split; [reflexivity|]. exists ss. split; [exact C|]. destruct ss; [auto|]. cbn. split; [lia|reflexivity].
Qed.
Lemma reads_all modulus ss (x0 : @shared byte) : version x0 < modulus -> ahead (sh_heap x0) (sh_tail x0) buffer_new ss -> done_flag x0 = true ->
  exists h x b, runs N.eqb modulus (while (fun _ => true)) x0 buffer_new h (Took (concat ss) x b).
Proof.
  intros V A D. destruct (own_text N.eqb modulus (while (fun _ => true)) ss x0 bytes_eq_ok (while_honest _)
    (while_uncut N.eqb _ ss) V A D) as ((h & r & R) & ALL).
  pose proof (ALL _ _ R) as H. destruct r as [o x b|e x b]; destruct H as (rest & RD & _); rewrite while_reads in RD; [|discriminate].
  injection RD as EO _. rewrite leading_all in EO by (apply forallb_forall; auto). subst o. exists h, x, b. exact R.
Qed.

(** "あ", a byte at a time, with a buffer as large as requested: no load fails, and
    to the parser there is nothing. *)
Theorem C109_lost_refuted modulus : 0 < modulus -> exists chunks ss x0 h x b,
  utf8 (concat chunks) /\ concat chunks <> [] /\ validated (fun n => n) chunks ss /\
  ahead (sh_heap x0) (sh_tail x0) buffer_new ss /\ done_flag x0 = true /\ version x0 < modulus /\
  runs N.eqb modulus (while (fun _ => true)) x0 buffer_new h (Took [] x b).
Proof.
  intros M. destruct (text_validated (fun n => n) [[0xE3]; [0x81]; [0x82]]%N []) as (ss & VA & CC); [auto|reflexivity|].
  destruct (validated_start _ _ _ VA) as (x0 & V0 & D & A).
  destruct (reads_all modulus ss x0) as (h & x & b & R); [lia|exact A|exact D|]. rewrite CC in R.
  exists [[0xE3]; [0x81]; [0x82]]%N, ss, x0, h, x, b.
  split; [exists [0x3042]%N; split; [constructor; [left; lia|constructor]|reflexivity]|].
  split; [discriminate|]. split; [exact VA|]. split; [exact A|]. split; [exact D|]. split; [lia|exact R].
Qed.

(** "aあ😀" in chunks of whole characters, with an odd buffer: the bytes of the
    first letters below 0x80, then one more. *)
Example C109_case :
  let chunks := [[0x61; 0x62; 0xE3; 0x81; 0x82]; []; [0xF0; 0x9F; 0x98; 0x80]]%N in
  let p := PJoin (while (fun x => x <? 0x80)%N) PAny in
  exists ss x0 h x b, validated odd_up chunks ss /\ Forall utf8 chunks /\ all_honest p /\ uncut N.eqb p ss /\
    ahead (sh_heap x0) (sh_tail x0) buffer_new ss /\ done_flag x0 = true /\ version x0 < 1 /\
    runs N.eqb 1 p x0 buffer_new h (Took ([0x61; 0x62], 0xE3)%N x b) /\ left_with x b [0x81; 0x82; 0xF0; 0x9F; 0x98; 0x80]%N.
Proof.
  intros chunks p. destruct C48_growth_cases as (OG & GR & _).
  assert (F : Forall utf8 chunks).
  { constructor; [|constructor; [apply utf8_nil|constructor; [|constructor]]].
    - exists [0x61; 0x62; 0x3042]%N. split; [repeat (constructor; [left; lia|]); constructor|reflexivity].
    - exists [0x1F600]%N. split; [constructor; [right; lia|constructor]|reflexivity]. }
  destruct (proj2 (C55_whole_partial odd_up GR) OG chunks F) as (ss & VA & CC).
  destruct (validated_start _ _ _ VA) as (x0 & V0 & D & A).
  assert (HO : all_honest p) by (split; [apply while_honest|exact Logic.I]).
  assert (U : uncut N.eqb p ss) by (split; [apply while_uncut|intros; exact Logic.I]).
  assert (V : version x0 < 1) by lia.
  destruct (C109_whole_partial 1 p chunks odd_up ss x0 GR OG F VA HO U V A D) as ((h & r & R) & ALL).
  pose proof (ALL _ _ R) as H. destruct r as [o x b|e x b]; destruct H as (rest & RD & LW); vm_compute in RD; [|discriminate].
  injection RD as <- <-. exists ss, x0, h, x, b. repeat (split; [assumption|]). exact LW.
Qed.

Print Assumptions C109_took_partial.
Print Assumptions C109_done_partial.
Print Assumptions C109_whole_partial.
Print Assumptions C109_read_back_refuted.
Print Assumptions C109_lost_refuted.
