(** * P_Early: what parsers may answer while the source is still being loaded,
    properties C84 and C110. *)
From Coq Require Import Lia.
From Verif Require Import S_Early L_Live L_LiveJoin L_LiveOwn L_EndToEnd L_GenSeq L_LiveFold P_Live P_LiveJoin P_EndToEnd P_LiveOwn P_LiveFold P_LiveFields.

Section Lemmas.
  Context {T : Type} (eqb : T -> T -> bool).
  Hypothesis eq_ok : decides_eq eqb.

  Lemma itemwise_ok {O E} (p : lparser T O E) : itemwise p -> all_honest p /\ forall q, uncut eqb p q.
  Proof.
    induction p as [|x|pat|O k|O0 E0 O1 E1 p0 IH0 p1 IH1|O E U p IH f|O E U p IH f|O E O' E' from p IH f|T0 T1 U E i0 i1 p IH|O T0 T1 U i0 i1 p IH|O E p IH|O E p IH|O E o0|O E e0|O E O' E' from p IH c IHc]; intros SA; cbn [itemwise uncut all_honest] in *; auto.
    - split; [now destruct pat|]. intros q. pose proof (cut_head q) as H. destruct (cut 0 q) as [|[|y seg] r]; [exact Logic.I|congruence|].
      intros _. rewrite SA. cbn. lia.
    - destruct SA as (M & ST & SA). auto.
    - destruct SA as (S0 & S1). destruct (IH0 S0) as (N0 & U0), (IH1 S1) as (N1 & U1). auto.
    - destruct SA as (S0 & S1). destruct (IH S0) as (N0 & U0). split; [split; [auto|]|].
      + intros o. now apply IHc.
      + intros q. split; [auto|]. intros o rest _. now apply IHc.
  Qed.

  (** Nothing is skipped, *)
  Lemma may_read_suffix O E (p : lparser T O E) t l r rest t' : may_read eqb O E p t l r rest t' -> exists taken, l = taken ++ rest.
  Proof.
    induction 1; auto; try (exists []; reflexivity).
    - destruct (reads_suffix eqb p l) as (b & S). rewrite H0 in S. eauto.
    - destruct (reads_suffix eqb p seen) as (b & S). rewrite H0 in S. cbn in S. exists b. now rewrite S at 1; rewrite <- app_assoc.
    - destruct IHmay_read1 as (b0 & ->), IHmay_read2 as (b1 & ->). exists (b0 ++ b1). apply app_assoc.
    - destruct IHmay_read1 as (b0 & ->), IHmay_read2 as (b1 & ->). exists (b0 ++ b1). apply app_assoc.
  Qed.
  Lemma may_read_once O E (p : lparser T O E) t l r rest t' : may_read eqb O E p t l r rest t' -> t = true -> t' = true.
  Proof. induction 1; auto. Qed.
  (** who was told of nothing too early has read all the items, *)
  Lemma may_read_whole O E (p : lparser T O E) t l r rest t' : may_read eqb O E p t l r rest t' -> t' = t -> reads eqb p l = (r, rest).
  Proof.
    induction 1; intros Q; cbn [reads]; auto.
    - discriminate.
    - now rewrite IHmay_read.
    - assert (t0 = t) as -> by (pose proof (may_read_once _ _ _ _ _ _ _ _ H); pose proof (may_read_once _ _ _ _ _ _ _ _ H0); destruct t, t0, t1; intuition congruence).
      rewrite (IHmay_read1 eq_refl), (IHmay_read2 Q). now destruct r.
    - rewrite (IHmay_read Q). now destruct r.
    - rewrite (IHmay_read Q). now destruct r.
    - rewrite (IHmay_read Q). destruct r as [o|e]; [now destruct (f o)|reflexivity].
    - rewrite (IHmay_read Q). now destruct r as [[a|a]|e].
    - rewrite (IHmay_read Q). now destruct r as [o|[e|e]].
    - now rewrite IHmay_read.
    - assert (t0 = t) as -> by (pose proof (may_read_once _ _ _ _ _ _ _ _ H); pose proof (may_read_once _ _ _ _ _ _ _ _ H0); destruct t, t0, t1; intuition congruence).
      now rewrite (IHmay_read1 eq_refl), (IHmay_read2 Q).
  Qed.
  (** and the other way round. *)
  Lemma reads_may O E (p : lparser T O E) t : forall l, may_read eqb O E p t l (fst (reads eqb p l)) (snd (reads eqb p l)) t.
  Proof.
    assert (leaf : forall O' E' (p' : lparser T O' E') l, primitive p' -> may_read eqb _ _ p' t l (fst (reads eqb p' l)) (snd (reads eqb p' l)) t).
    { intros O' E' p' l P. apply mr_whole; [exact P|apply surjective_pairing]. }
    induction p as [|x|pat|O k|O0 E0 O1 E1 p0 IH0 p1 IH1|O E U p IH f|O E U p IH f|O E O' E' from p IH f|T0 T1 U E i0 i1 p IH|O T0 T1 U i0 i1 p IH|O E p IH|O E p IH|O E o0|O E e0|O E O' E' from p IH c IHc]; intros l;
      try (apply leaf; exact Logic.I).
    - cbn [reads]. specialize (IH0 l). destruct (reads eqb p0 l) as [[o0|e] l0]; cbn [fst snd] in IH0.
      + specialize (IH1 l0). pose proof (mr_join eqb _ _ _ _ _ _ _ _ _ _ _ _ _ _ IH0 IH1) as X. destruct (reads eqb p1 l0) as [[o1|e] l1]; exact X.
      + now apply mr_join_first.
    - cbn [reads]. specialize (IH l). pose proof (mr_map eqb _ _ _ _ f _ _ _ _ _ IH) as X. destruct (reads eqb p l) as [[o|e] l0]; exact X.
    - cbn [reads]. specialize (IH l). pose proof (mr_map_err eqb _ _ _ _ f _ _ _ _ _ IH) as X. destruct (reads eqb p l) as [[o|e] l0]; exact X.
    - cbn [reads]. specialize (IH l). pose proof (mr_and_then eqb _ _ _ _ from _ f _ _ _ _ _ IH) as X.
      destruct (reads eqb p l) as [[o|e] l0]; cbn [fst snd] in *; [destruct (f o)|]; exact X.
    - cbn [reads]. specialize (IH l). pose proof (mr_unify eqb _ _ _ _ i0 i1 _ _ _ _ _ _ IH) as X. destruct (reads eqb p l) as [[[o|o]|e] l0]; exact X.
    - cbn [reads]. specialize (IH l). pose proof (mr_unify_err eqb _ _ _ _ i0 i1 _ _ _ _ _ _ IH) as X. destruct (reads eqb p l) as [[o|[e|e]] l0]; exact X.
    - apply mr_ref, IH.
    - apply mr_boxed, IH.
    - apply mr_done.
    - apply mr_fail.
    - cbn [reads]. specialize (IH l). destruct (reads eqb p l) as [[o|e] l0]; cbn [fst snd] in IH.
      + eapply mr_then; [exact IH|apply IHc].
      + now apply mr_then_fails.
  Qed.
End Lemmas.

Section Early.
  Context {T : Type} (eqb : T -> T -> bool).
  Hypothesis eq_ok : decides_eq eqb.
  Variable modulus : nat.

  Definition early {O E} (p : lparser T O E) (t : bool) (q : list (list T)) (h : list (@revent T)) (r : @outcome T O E) : Prop :=
    version (shared_of r) < modulus /\ exists q' t', ahead (sh_heap (shared_of r)) (sh_tail (shared_of r)) (buffer_of r) q' /\
      (t' = true -> done_flag (shared_of r) = true) /\
      forall more, (done_flag (shared_of r) = true -> more = []) ->
        may_read eqb O E p t (concat (q ++ appended h) ++ more) (answer r) (concat q' ++ more) t'.

  Lemma quiet O E (p : lparser T O E) x b h r : runs eqb modulus p x b h r -> itemwise p ->
    forall q, version x < modulus -> ahead (sh_heap x) (sh_tail x) b q -> done_flag x = true ->
    appended h = [] /\ done_flag (shared_of r) = true.
  Proof.
    intros R IW q V A D. destruct (itemwise_ok eqb p IW) as (AH & _).
    destruct (run_own eqb eq_ok modulus _ _ _ _ _ _ _ R AH q V A D) as (Q & H). split; [exact Q|]. destruct r; apply H.
  Qed.

  Lemma reads_of {O E} (p : lparser T O E) q s r : itemwise p ->
    parse (built eqb p) (Chunked q) = Ret (match r with ROk o => Ok o (Chunked s) | RErr e => Err e (Chunked s) end) ->
    reads eqb p (concat q) = (r, concat s).
  Proof.
    intros IW P. destruct (itemwise_ok eqb p IW) as (AH & UC).
    destruct (honest_reads eqb eq_ok p AH q (UC _)) as (s' & P' & SC). unfold on in P'. rewrite P in P'.
    destruct (reads_suffix eqb p (concat q)) as (b & E0). apply concat_same in SC. rewrite cut_concat in SC.
    destruct (reads eqb p (concat q)) as [r' rest]. cbn [fst snd] in *.
    assert (concat s' = rest) as <- by (rewrite SC, E0, app_length, Nat.add_sub, skipn_length_app; reflexivity).
    destruct r, r'; try discriminate; injection P' as <- <-; reflexivity.
  Qed.

  (** One primitive parser. *)
  Lemma prim_early {O} (p : lparser T O (Miss unit)) (l : @looker T O) t x b q h r : primitive p -> itemwise p -> honest l ->
    version x < modulus -> ahead (sh_heap x) (sh_tail x) b q -> (t = true -> done_flag x = true) ->
    (forall s, parse (built eqb p) (Chunked s) = look_parse l (Chunked s)) ->
    prim_runs modulus l x b h r -> early p t q h r.
  Proof.
    intros PR IW HO V A DT B R.
    assert (H : version (shared_of r) < modulus /\ exists add1 add2 s, appended h = add1 ++ add2 /\
      parse (built eqb p) (Chunked (q ++ add1)) = Ret (match answer r with ROk o => Ok o (Chunked s) | RErr e => Err e (Chunked s) end) /\
      same_ahead (shared_of r) (buffer_of r) (s ++ add2)).
    { pose proof (own_answer modulus l x b q V A HO h r R) as X. destruct r; destruct X as (V' & add1 & add2 & s & EA & P & SA); (split; [exact V'|]); exists add1, add2, s; rewrite B; auto. }
    assert (W : done_flag (shared_of r) = true \/ exists s, (forall more, parse (built eqb p) (Chunked ((q ++ appended h) ++ more)) =
      Ret (match answer r with ROk o => Ok o (Chunked (s ++ more)) | RErr e => Err e (Chunked (s ++ more)) end)) /\
      same_ahead (shared_of r) (buffer_of r) s).
    { pose proof (own_heard modulus l x b q V A HO h r R) as X. destruct r; (destruct X as [X|(s & X & SA)]; [now left|right; exists s; split; [|exact SA]; intros; rewrite B; apply X]). }
    assert (QT : done_flag x = true -> appended h = []) by (intros D; exact (proj1 (own_quiet modulus l x b q V A HO h r D R))).
    destruct H as (V' & add1 & add2 & s & EA & P & q' & A' & S'). split; [exact V'|].
    destruct W as [D|(s0 & W & q0 & A0 & S0)].
    - destruct t.
      + exists q', true. split; [exact A'|]. split; [auto|]. intros more N. rewrite (N D), !app_nil_r.
        apply mr_whole; [exact PR|]. rewrite (concat_same _ _ S'). rewrite (QT (DT eq_refl)) in *. symmetry in EA. apply app_eq_nil in EA as (-> & ->).
        rewrite !app_nil_r in *. now apply reads_of.
      + exists q', true. split; [exact A'|]. split; [auto|]. intros more N. rewrite (N D), !app_nil_r.
        rewrite EA, (concat_same _ _ S'), (app_assoc q), concat_app, (concat_app s). apply mr_early; [exact PR|]. now apply reads_of.
    - exists q0, t. split; [exact A0|]. split.
      + intros ->. destruct (own_quiet modulus l x b q V A HO h r (DT eq_refl) R) as (_ & D). now destruct r.
      + intros more _. apply mr_whole; [exact PR|]. rewrite (concat_same _ _ S0), <- (one_each_concat more), <- !concat_app.
        apply reads_of; [exact IW|]. apply W.
  Qed.

  Lemma both_early {O0 E0 O1 E1} (p0 : lparser T O0 E0) (p1 : lparser T O1 E1) t q h0 h1 o0 x0 b0 (r : @outcome T O1 E1) :
    early p0 t q h0 (Took o0 x0 b0) -> itemwise p1 -> runs eqb modulus p1 x0 b0 h1 r ->
    (forall t q, version x0 < modulus -> ahead (sh_heap x0) (sh_tail x0) b0 q -> (t = true -> done_flag x0 = true) -> early p1 t q h1 r) ->
    version (shared_of r) < modulus /\ exists q' t', ahead (sh_heap (shared_of r)) (sh_tail (shared_of r)) (buffer_of r) q' /\
      (t' = true -> done_flag (shared_of r) = true) /\
      forall more, (done_flag (shared_of r) = true -> more = []) ->
        exists m t0, may_read eqb _ _ p0 t (concat (q ++ appended (h1 ++ h0)) ++ more) (ROk o0) m t0 /\ may_read eqb _ _ p1 t0 m (answer r) (concat q' ++ more) t'.
  Proof.
    intros (V0 & q0 & t0 & A0 & D0 & M0) IW R N1. cbn [shared_of buffer_of] in *. destruct (N1 t0 q0 V0 A0 D0) as (V1 & q1 & t1 & A1 & D1 & M1).
    split; [exact V1|]. exists q1, t1. split; [exact A1|]. split; [exact D1|]. intros more NM.
    exists (concat (q0 ++ appended h1) ++ more), t0. split; [|exact (M1 more NM)].
    rewrite appended_app, app_assoc, concat_app, (concat_app q0), <- !app_assoc. apply M0.
    intros D. destruct (quiet _ _ _ _ _ _ _ R IW q0 V0 A0 D) as (-> & D'). exact (NM D').
  Qed.

  Lemma run_early O E (p : lparser T O E) x b h r : runs eqb modulus p x b h r -> itemwise p ->
    forall t q, version x < modulus -> ahead (sh_heap x) (sh_tail x) b q -> (t = true -> done_flag x = true) -> early p t q h r.
  Proof.
    intros R. induction R; intros NE t q V A DT; cbn in NE; try (destruct (IHR NE t q V A DT) as (V0 & q0 & t0 & A0 & D0 & M0);
      (split; [exact V0|]; exists q0, t0; split; [exact A0|]; split; [exact D0|]; intros more NM; specialize (M0 more NM); cbn [answer shared_of buffer_of] in *)).
    - eapply prim_early; [exact Logic.I|exact NE|apply modest_honest, any_modest|exact V|exact A|exact DT| |exact H]. intros s. apply any_same.
    - eapply prim_early; [exact Logic.I|exact NE|apply modest_honest; now apply the_modest|exact V|exact A|exact DT| |exact H]. intros s. apply the_same.
    - eapply prim_early; [exact Logic.I|exact NE|apply modest_honest; now apply atom_modest|exact V|exact A|exact DT| |exact H].
      intros s. exact (atom_same eqb _ _ V pat s).
    - eapply prim_early; [exact Logic.I|exact NE|apply NE|exact V|exact A|exact DT| |exact H]. reflexivity.
    - destruct NE as (N0 & N1). destruct (both_early _ _ t q h0 h1 _ _ _ _ (IHR1 N0 t q V A DT) N1 R2 (IHR2 N1)) as (V1 & q1 & t1 & A1 & D1 & X).
      split; [exact V1|]. exists q1, t1. split; [exact A1|]. split; [exact D1|]. intros more NM. destruct (X more NM) as (m & t0 & M0 & M1).
      exact (mr_join eqb _ _ _ _ _ _ _ _ _ _ _ _ _ _ M0 M1).
    - destruct NE as (N0 & N1). destruct (IHR N0 t q V A DT) as (V0 & q0 & t0 & A0 & D0 & M0). split; [exact V0|]. exists q0, t0. split; [exact A0|].
      split; [exact D0|]. intros more NM. apply mr_join_first. exact (M0 more NM).
    - destruct NE as (N0 & N1). destruct (both_early _ _ t q h0 h1 _ _ _ _ (IHR1 N0 t q V A DT) N1 R2 (IHR2 N1)) as (V1 & q1 & t1 & A1 & D1 & X).
      split; [exact V1|]. exists q1, t1. split; [exact A1|]. split; [exact D1|]. intros more NM. destruct (X more NM) as (m & t0 & M0 & M1).
      exact (mr_join eqb _ _ _ _ _ _ _ _ _ _ _ _ _ _ M0 M1).
    - exact (mr_map eqb _ _ _ _ f _ _ _ _ _ M0).
    - exact (mr_map eqb _ _ _ _ f _ _ _ _ _ M0).
    - exact (mr_map_err eqb _ _ _ _ f _ _ _ _ _ M0).
    - exact (mr_map_err eqb _ _ _ _ f _ _ _ _ _ M0).
    - pose proof (mr_and_then eqb _ _ _ _ from _ f _ _ _ _ _ M0) as X. cbn in X. now rewrite H in X.
    - pose proof (mr_and_then eqb _ _ _ _ from _ f _ _ _ _ _ M0) as X. cbn in X. now rewrite H in X.
    - exact (mr_and_then eqb _ _ _ _ from _ f _ _ _ _ _ M0).
    - pose proof (mr_unify eqb _ _ _ _ into0 into1 _ _ _ _ _ _ M0) as X. cbn in X. now destruct o.
    - exact (mr_unify eqb _ _ _ _ into0 into1 _ _ _ _ _ _ M0).
    - exact (mr_unify_err eqb _ _ _ _ into0 into1 _ _ _ _ _ _ M0).
    - pose proof (mr_unify_err eqb _ _ _ _ into0 into1 _ _ _ _ _ _ M0) as X. cbn in X. now destruct e.
    - now apply mr_ref.
    - now apply mr_boxed.
    - split; [exact V|]. exists q, t. split; [exact A|]. split; [exact DT|]. intros more _. cbn [appended answer]. rewrite app_nil_r. apply mr_done.
    - split; [exact V|]. exists q, t. split; [exact A|]. split; [exact DT|]. intros more _. cbn [appended answer]. rewrite app_nil_r. apply mr_fail.
    - destruct NE as (N0 & N1). destruct (both_early _ _ t q h0 h1 _ _ _ _ (IHR1 N0 t q V A DT) (N1 o) R2 (IHR2 (N1 o))) as (V1 & q1 & t1 & A1 & D1 & X).
      split; [exact V1|]. exists q1, t1. split; [exact A1|]. split; [exact D1|]. intros more NM. destruct (X more NM) as (m & t0 & M0 & M1).
      exact (mr_then eqb _ _ _ _ from _ _ _ _ _ _ _ _ _ _ M0 M1).
    - destruct NE as (N0 & N1). destruct (IHR N0 t q V A DT) as (V0 & q0 & t0 & A0 & D0 & M0). split; [exact V0|]. exists q0, t0. split; [exact A0|].
      split; [exact D0|]. intros more NM. apply mr_then_fails. exact (M0 more NM).
  Qed.
End Early.

(** ** From the chunks of the source to the answer, while they are being loaded *)
(** [late] is not committed yet; when the loader says that it is done, nothing is late. *)
Theorem C110_once {T} (eqb : T -> T -> bool) modulus {O E} (p : lparser T O E) chunks grow ss x0 q late h r :
  decides_eq eqb -> itemwise p -> (forall n, n <= grow n) -> commits grow chunks ss ->
  version x0 < modulus -> ahead (sh_heap x0) (sh_tail x0) buffer_new q -> ss = q ++ appended h ++ late ->
  runs eqb modulus p x0 buffer_new h r -> (done_flag (shared_of r) = true -> late = []) ->
  exists told taken rest, keeps grow 0 0 chunks = taken ++ rest ++ concat late /\
    may_read eqb _ _ p false (keeps grow 0 0 chunks) (answer r) (rest ++ concat late) told /\
    left_with (shared_of r) (buffer_of r) rest /\ (told = true -> done_flag (shared_of r) = true).
Proof.
  intros eq_ok IW grows CM V A LD R DL. rewrite <- (text_loaded chunks grow ss grows CM).
  destruct (run_early eqb eq_ok modulus _ _ _ _ _ _ _ R IW false q V A) as (_ & q' & t & A' & D & M); [discriminate|].
  specialize (M (concat late)). rewrite <- concat_app, <- app_assoc, <- LD in M.
  assert (X : done_flag (shared_of r) = true -> concat late = []) by (intros Y; now rewrite (DL Y)). specialize (M X).
  destruct (may_read_suffix eqb _ _ _ _ _ _ _ _ M) as (taken & S). exists t, taken, (concat q'). split; [exact S|]. split; [exact M|].
  split; [exists q'; auto|exact D].
Qed.
(** An answer from before the loader says that it is done, is that on the whole
    text, whatever else may come. *)
Theorem C110_before_done {T} (eqb : T -> T -> bool) modulus {O E} (p : lparser T O E) chunks grow ss x0 q late h r :
  decides_eq eqb -> itemwise p -> (forall n, n <= grow n) -> commits grow chunks ss ->
  version x0 < modulus -> ahead (sh_heap x0) (sh_tail x0) buffer_new q -> ss = q ++ appended h ++ late ->
  runs eqb modulus p x0 buffer_new h r -> done_flag (shared_of r) = false ->
  exists rest, reads eqb p (keeps grow 0 0 chunks) = (answer r, rest ++ concat late) /\ left_with (shared_of r) (buffer_of r) rest.
Proof.
  intros eq_ok IW grows CM V A LD R ND.
  destruct (C110_once eqb modulus p chunks grow ss x0 q late h r eq_ok IW grows CM V A LD R) as (told & taken & rest & _ & M & LW & D); [congruence|].
  exists rest. split; [|exact LW]. apply (may_read_whole eqb _ _ _ _ _ _ _ _ M). destruct told; [|reflexivity]. rewrite D in ND by reflexivity. discriminate.
Qed.
(** Who has not been told too early has read the whole. *)
Theorem C110_whole {T} (eqb : T -> T -> bool) {O E} (p : lparser T O E) told l r rest :
  may_read eqb O E p told l r rest told <-> reads eqb p l = (r, rest).
Proof.
  split; intros R; [exact (may_read_whole eqb _ _ _ _ _ _ _ _ R eq_refl)|].
  pose proof (reads_may eqb _ _ p told l) as M. now rewrite R in M.
Qed.

(** ** Folds *)
Section Folds.
  Context {T : Type} (eqb : T -> T -> bool).
  Hypothesis eq_ok : decides_eq eqb.
  Variable modulus : nat.
  Context {St O E Acc : Type} (it : live_iter T St O E) (f : Acc -> O -> Acc).
  Hypothesis by_one : forall st, itemwise (li_next it st).

  Lemma fold_quiet st acc x b h r : folds eqb modulus it f st acc x b h r ->
    forall q, version x < modulus -> ahead (sh_heap x) (sh_tail x) b q -> done_flag x = true ->
    appended h = [] /\ done_flag (shared_of r) = true.
  Proof.
    induction 1 as [st acc x b h0 v st' x0 b0 h1 r R F IH|st acc x b h st' x0 b0 R|st acc x b h e st' x0 b0 R]; intros q V A D;
      destruct (quiet eqb eq_ok modulus _ _ _ _ _ _ _ R (by_one st) q V A D) as (Q & D'); auto.
    destruct (run_early eqb eq_ok modulus _ _ _ _ _ _ _ R (by_one st) true q V A (fun _ => D)) as (V0 & q0 & _ & A0 & _).
    cbn [shared_of buffer_of] in *. destruct (IH q0 V0 A0 D') as (Q1 & D1). split; [|exact D1]. now rewrite appended_app, Q, Q1.
  Qed.

  Lemma fold_early st acc x b h r : folds eqb modulus it f st acc x b h r ->
    forall t q, version x < modulus -> ahead (sh_heap x) (sh_tail x) b q -> (t = true -> done_flag x = true) ->
    exists q' vs st1 st2, ahead (sh_heap (shared_of r)) (sh_tail (shared_of r)) (buffer_of r) q' /\
      match r with Took a _ _ => a = fold_left f vs acc | Failed _ _ _ => True end /\
      forall more, (done_flag (shared_of r) = true -> more = []) -> exists l1 t1 t2,
        (t2 = true -> done_flag (shared_of r) = true) /\
        may_give eqb it st t (concat (q ++ appended h) ++ more) vs st1 l1 t1 /\
        may_read eqb _ _ (li_next it st1) t1 l1
          (match r with Took _ _ _ => ROk (None, st2) | Failed e _ _ => RErr (e, st2) end) (concat q' ++ more) t2.
  Proof.
    induction 1 as [st acc x b h0 v st' x0 b0 h1 r R F IH|st acc x b h st' x0 b0 R|st acc x b h e st' x0 b0 R]; intros t q V A DT;
      destruct (run_early eqb eq_ok modulus _ _ _ _ _ _ _ R (by_one st) t q V A DT) as (V0 & q0 & t0 & A0 & D0 & M0); cbn [answer shared_of buffer_of] in *.
    - destruct (IH t0 q0 V0 A0 D0) as (q1 & vs & st1 & st2 & A1 & H & G).
      exists q1, (v :: vs), st1, st2. split; [exact A1|]. split; [exact H|]. intros more NM.
      destruct (G more NM) as (l1 & t1 & t2 & D2 & G1 & M1). exists l1, t1, t2. split; [exact D2|]. split; [|exact M1].
      eapply mg_more; [|exact G1]. rewrite appended_app, app_assoc, concat_app, (concat_app q0), <- !app_assoc. apply M0.
      intros D. destruct (fold_quiet _ _ _ _ _ _ F q0 V0 A0 D) as (-> & D'). exact (NM D').
    - exists q0, [], st, st'. split; [exact A0|]. split; [reflexivity|]. intros more NM. exists (concat (q ++ appended h) ++ more), t, t0.
      split; [exact D0|]. split; [constructor|]. exact (M0 more NM).
    - exists q0, [], st, st'. split; [exact A0|]. split; [exact Logic.I|]. intros more NM. exists (concat (q ++ appended h) ++ more), t, t0.
      split; [exact D0|]. split; [constructor|]. exact (M0 more NM).
  Qed.
End Folds.

(** In all the rounds of a fold together, one primitive parser may be told of the end too early. *)
Theorem C110_fold {T} (eqb : T -> T -> bool) modulus {St O E Acc} (it : live_iter T St O E) (f : Acc -> O -> Acc) st acc chunks grow ss x0 q late h r :
  decides_eq eqb -> (forall st, itemwise (li_next it st)) -> (forall n, n <= grow n) -> commits grow chunks ss ->
  version x0 < modulus -> ahead (sh_heap x0) (sh_tail x0) buffer_new q -> ss = q ++ appended h ++ late ->
  folds eqb modulus it f st acc x0 buffer_new h r -> (done_flag (shared_of r) = true -> late = []) ->
  exists vs st1 l1 t1 st2 rest told, left_with (shared_of r) (buffer_of r) rest /\
    (told = true -> done_flag (shared_of r) = true) /\
    may_give eqb it st false (keeps grow 0 0 chunks) vs st1 l1 t1 /\
    match r with
    | Took a _ _ => a = fold_left f vs acc /\ may_read eqb _ _ (li_next it st1) t1 l1 (ROk (None, st2)) (rest ++ concat late) told
    | Failed e _ _ => may_read eqb _ _ (li_next it st1) t1 l1 (RErr (e, st2)) (rest ++ concat late) told
    end.
Proof.
  intros eq_ok IW grows CM V A LD F DL. rewrite <- (text_loaded chunks grow ss grows CM).
  destruct (fold_early eqb eq_ok modulus it f IW _ _ _ _ _ _ F false q V A) as (q' & vs & st1 & st2 & A' & H & G); [discriminate|].
  destruct (G (concat late)) as (l1 & t1 & t2 & D & G1 & M); [intros Y; now rewrite (DL Y)|].
  exists vs, st1, l1, t1, st2, (concat q'), t2. split; [exists q'; auto|]. split; [exact D|].
  rewrite <- concat_app, <- app_assoc, <- LD in G1. split; [exact G1|]. destruct r; auto.
Qed.

Section FoldWhole.
  Context {T : Type} (eqb : T -> T -> bool) {St O E : Type} (it : live_iter T St O E).
  Lemma may_give_once st t l vs st' l' t' : may_give eqb it st t l vs st' l' t' -> t = true -> t' = true.
  Proof. induction 1; auto. intros Q. apply IHmay_give. exact (may_read_once eqb _ _ _ _ _ _ _ _ H Q). Qed.
  Lemma may_give_whole st t l vs st' l' t' : may_give eqb it st t l vs st' l' t' -> t' = t -> given eqb it st l vs st' l'.
  Proof.
    induction 1 as [st t l|st t l v st1 l1 t1 vs st2 l2 t2 M G IH]; intros Q; [constructor|].
    assert (t1 = t) as -> by (pose proof (may_read_once eqb _ _ _ _ _ _ _ _ M); pose proof (may_give_once _ _ _ _ _ _ _ G); destruct t, t1, t2; intuition congruence).
    eapply gv_more; [exact (may_read_whole eqb _ _ _ _ _ _ _ _ M eq_refl)|auto].
  Qed.
End FoldWhole.
(** A fold that ends before the loader says that it is done has given what the whole text gives. *)
Theorem C110_fold_before_done {T} (eqb : T -> T -> bool) modulus {St O E Acc} (it : live_iter T St O E) (f : Acc -> O -> Acc) st acc chunks grow ss x0 q late h r :
  decides_eq eqb -> (forall st, itemwise (li_next it st)) -> (forall n, n <= grow n) -> commits grow chunks ss ->
  version x0 < modulus -> ahead (sh_heap x0) (sh_tail x0) buffer_new q -> ss = q ++ appended h ++ late ->
  folds eqb modulus it f st acc x0 buffer_new h r -> done_flag (shared_of r) = false ->
  exists vs rest, left_with (shared_of r) (buffer_of r) rest /\
    match r with
    | Took a _ _ => a = fold_left f vs acc /\ gives eqb it st (keeps grow 0 0 chunks) vs (rest ++ concat late)
    | Failed e _ _ => breaks eqb it st (keeps grow 0 0 chunks) vs e (rest ++ concat late)
    end.
Proof.
  intros eq_ok IW grows CM V A LD F ND.
  destruct (C110_fold eqb modulus it f st acc chunks grow ss x0 q late h r eq_ok IW grows CM V A LD F)
    as (vs & st1 & l1 & t1 & st2 & rest & told & LW & D & G & H); [congruence|].
  assert (told = false) as -> by (destruct told; [rewrite D in ND by reflexivity; discriminate|reflexivity]).
  exists vs, rest. split; [exact LW|].
  assert (X : forall v, may_read eqb _ _ (li_next it st1) t1 l1 v (rest ++ concat late) false ->
    given eqb it st (keeps grow 0 0 chunks) vs st1 l1 /\ reads eqb (li_next it st1) l1 = (v, rest ++ concat late)).
  { intros v M. assert (t1 = false) as -> by (pose proof (may_read_once eqb _ _ _ _ _ _ _ _ M); destruct t1; intuition congruence).
    split; [exact (may_give_whole eqb it _ _ _ _ _ _ _ G eq_refl)|exact (may_read_whole eqb _ _ _ _ _ _ _ _ M eq_refl)]. }
  destruct r as [a x b|e x b]; [destruct H as (-> & H); split; [reflexivity|]|]; destruct (X _ H) as (GV & R); exists st1, l1, st2; auto.
Qed.

(** ** The fields of a text *)
Section Inversion.
  Context {T : Type} (eqb : T -> T -> bool).
  Definition may_inv {O E} (p : lparser T O E) : bool -> list T -> result O E -> list T -> bool -> Prop :=
    match p in lparser _ O E return bool -> list T -> result O E -> list T -> bool -> Prop with
    | PLook k => fun t l r rest t' =>
        reads eqb (PLook k) l = (r, rest) /\ t' = t \/
        t = false /\ t' = true /\ exists seen unseen rest', l = seen ++ unseen /\ rest = rest' ++ unseen /\ reads eqb (PLook k) seen = (r, rest')
    | PDone o => fun t l r rest t' => r = ROk o /\ rest = l /\ t' = t
    | PThen from p c => fun t l r rest t' =>
        (exists e, may_read eqb _ _ p t l (RErr e) rest t' /\ r = RErr (from e)) \/
        (exists o m t0, may_read eqb _ _ p t l (ROk o) m t0 /\ may_read eqb _ _ (c o) t0 m r rest t')
    | _ => fun _ _ _ _ _ => True
    end.
  Lemma may_read_inv O E (p : lparser T O E) t l r rest t' : may_read eqb O E p t l r rest t' -> may_inv p t l r rest t'.
  Proof.
    destruct 1; cbn [may_inv]; eauto 6.
    - destruct p; cbn [may_inv primitive] in *; auto; try contradiction.
    - destruct p; cbn [may_inv primitive] in *; auto; try contradiction. right. eauto 9.
  Qed.
End Inversion.

Section Fields.
  Context {T : Type} (eqb : T -> T -> bool) (sep : T).
  Hypothesis eq_ok : decides_eq eqb.

  Lemma fields_itemwise st : itemwise (li_next (fields eqb sep) st).
  Proof.
    destruct st; cbn [fields li_next itemwise]; [exact Logic.I|].
    split; [|intros o; split; [|intros; exact Logic.I]].
    - destruct (while_honest (fun x => negb (eqb x sep))) as (H & S). split; [exact H|]. split; [exact S|].
      intros q. change (lk_init (while_looker ?w)) with (@nil T). rewrite !while_settle, one_each_concat. reflexivity.
    - destruct (@maybe_honest T) as (H & S). split; [exact H|]. split; [exact S|].
      intros q. change (lk_init (@maybe_looker T)) with tt. now rewrite !maybe_settle, one_each_concat.
  Qed.

  Lemma while_may t l r m t' : may_read eqb _ _ (while (fun x => negb (eqb x sep))) t l r m t' ->
    exists v, r = ROk v /\ plain sep v /\ l = v ++ m /\
      (t' = t /\ match m with y :: _ => y = sep | [] => True end \/ t = false /\ t' = true).
  Proof.
    intros M. set (w := fun x => negb (eqb x sep)) in *.
    assert (PL : forall a, plain sep (leading w a)).
    { intros a I. destruct (proj2 (leading_is w a _ _) (conj eq_refl eq_refl)) as (_ & F & _). apply F in I. unfold w in I.
      assert (X : eqb sep sep = true) by now apply eq_ok. rewrite X in I. discriminate. }
    apply may_read_inv in M. cbn [may_inv while] in M. change (PLook (while_looker w)) with (while w) in M.
    destruct M as [(R & ->)|(-> & -> & a & u & m' & -> & -> & R)]; rewrite while_reads in R; injection R as <- <-.
    - destruct (proj2 (leading_is w l _ _) (conj eq_refl eq_refl)) as (EQ & _ & N). exists (leading w l).
      split; [reflexivity|]. split; [apply PL|]. split; [exact EQ|]. left. split; [reflexivity|].
      destruct (skipn (length (leading w l)) l) as [|y rest]; [exact Logic.I|]. apply eq_ok. unfold w in N. now destruct (eqb y sep).
    - destruct (proj2 (leading_is w a _ _) (conj eq_refl eq_refl)) as (EQ & _ & N). exists (leading w a).
      split; [reflexivity|]. split; [apply PL|]. split; [|auto]. rewrite EQ at 1. now rewrite <- app_assoc.
  Qed.
  Lemma maybe_may t l r m t' : may_read eqb _ _ (PLook (@maybe_looker T)) t l r m t' ->
    (r = ROk None /\ m = l /\ (l = [] /\ t' = t \/ t = false /\ t' = true)) \/
    exists y, r = ROk (Some y) /\ l = y :: m /\ (t' = t \/ t = false /\ t' = true).
  Proof.
    intros M. apply may_read_inv in M. cbn [may_inv] in M.
    destruct M as [(R & ->)|(-> & -> & a & u & m' & -> & -> & R)]; rewrite maybe_reads in R.
    - destruct l as [|y l]; injection R as <- <-; [left|right; exists y]; auto.
    - destruct a as [|y a]; injection R as <- <-; [left|right; exists y]; auto.
  Qed.

  (** One round: a piece without the separator, and perhaps one item; to read on
      behind a wrong item, or to leave something, it must have been told too early. *)
  Definition cost (b : bool) : nat := if b then 1 else 0.
  Lemma fields_round st t l r rest t' : may_read eqb _ _ (li_next (fields eqb sep) st) t l r rest t' ->
    if st then r = ROk (None, true) /\ rest = l /\ t' = t
    else exists v, plain sep v /\
      (r = ROk (Some v, true) /\ l = v ++ rest /\ match rest with [] => 0 | _ => 1 end + cost t <= cost t' \/
       exists y, r = ROk (Some v, false) /\ l = v ++ y :: rest /\ others eqb sep [y] + cost t <= cost t').
  Proof.
    destruct st; cbn [fields li_next]; intros M; apply may_read_inv in M; cbn [may_inv] in M; [tauto|].
    destruct M as [(e & M & _)|(v & m & t0 & M & N)]; apply while_may in M as (v' & E & PL & -> & W); [discriminate|]. injection E as <-.
    exists v. split; [exact PL|].
    apply may_read_inv in N. cbn [may_inv] in N. destruct N as [(e & N & _)|(o & m' & t1 & N & D)];
      (apply maybe_may in N as [(E & -> & X)|(y & E & -> & X)]; [|]); try discriminate; injection E as ->;
      apply may_read_inv in D; cbn [may_inv] in D; destruct D as (-> & -> & ->).
    - left. split; [reflexivity|]. split; [reflexivity|].
      destruct X as [(X1 & X2)|(X1 & X2)], W as [(W1 & _)|(W1 & W2)]; subst; try discriminate; cbn; try (destruct m; cbn; lia); auto.
    - right. exists y. split; [reflexivity|]. split; [reflexivity|]. unfold others. cbn [filter].
      assert (SS : eqb sep sep = true) by now apply eq_ok.
      destruct W as [(W1 & W2)|(W1 & W2)].
      + rewrite W2, SS. cbn. destruct X as [X|(X1 & X2)]; subst; cbn; [auto|lia].
      + destruct X as [X|(X & _)]; [|congruence]. subst. destruct (negb (eqb y sep)); cbn; lia.
  Qed.
  Lemma fields_pieces st t l vs st' l' t' : may_give eqb (fields eqb sep) st t l vs st' l' t' -> st' = true ->
    if st then vs = [] /\ l' = l /\ t' = t
    else Forall (plain sep) vs /\ exists between, length vs = S (length between) /\ l = laced vs between ++ l' /\
      others eqb sep between + match l' with [] => 0 | _ => 1 end + cost t <= cost t'.
  Proof.
    intros G E. induction G as [st t l|st t l v st1 l1 t1 vs st2 l2 t2 R G IH]; [now subst|]. specialize (IH E).
    apply fields_round in R. destruct st; [destruct R as (R & _); discriminate|].
    destruct R as (v' & PL & [(R & -> & C)|(y & R & -> & C)]); injection R as <- ->.
    - destruct IH as (-> & -> & ->). split; [auto|]. exists []. split; [reflexivity|]. cbn [laced]. rewrite app_nil_r. split; [reflexivity|exact C].
    - destruct IH as (F & between & L & -> & C2). split; [auto|]. exists (y :: between). cbn [length laced]. split; [now rewrite L|].
      split; [now rewrite <- app_assoc|]. unfold others in *. cbn [filter] in *. destruct (negb (eqb y sep)); cbn [length] in *; lia.
  Qed.

  (** While the text is loaded the fold never fails, and what it gives are pieces
      of the text in order, none with the separator in it, one item between each
      two, and what is left behind them.  One of these items may be no separator,
      or something may be left; not both, and no more than one. *)
  Theorem C110_fields modulus chunks ss x0 q late h r : commits odd_up chunks ss -> version x0 < modulus ->
    ahead (sh_heap x0) (sh_tail x0) buffer_new q -> ss = q ++ appended h ++ late ->
    folds eqb modulus (fields eqb sep) snoc false [] x0 buffer_new h r -> (done_flag (shared_of r) = true -> late = []) ->
    exists vs x b between rest, r = Took vs x b /\ left_with x b rest /\ (forall v, In v vs -> ~ In sep v) /\
      length vs = S (length between) /\ concat chunks = laced vs between ++ rest ++ concat late /\
      others eqb sep between + match rest ++ concat late with [] => 0 | _ => 1 end <= if done_flag x then 1 else 0.
  Proof.
    intros CM V A LD F DL.
    assert (GR : forall n, n <= odd_up n) by (intros n; unfold odd_up; destruct (Nat.even n); lia).
    destruct (C110_fold eqb modulus (fields eqb sep) snoc false [] chunks odd_up ss x0 q late h r eq_ok fields_itemwise GR CM V A LD F DL)
      as (vs & st1 & l1 & t1 & st2 & rest & t2 & LW & D & G & H). rewrite keeps_odd in G.
    destruct r as [a x b|e x b].
    - destruct H as (-> & H). apply fields_round in H.
      destruct st1; [|destruct H as (v & _ & [(H & _)|(y & H & _)]); discriminate]. destruct H as (_ & <- & ->).
      destruct (fields_pieces _ _ _ _ _ _ _ G eq_refl) as (P & between & L & EQ & C).
      exists vs, x, b, between, rest. split; [f_equal; apply (snoc_fold vs [])|]. split; [exact LW|].
      split; [now apply Forall_forall|]. split; [exact L|]. split; [exact EQ|]. cbn [shared_of] in D.
      destruct t1; cbn [cost] in C; [rewrite D by reflexivity|destruct (done_flag x)]; lia.
    - apply fields_round in H. destruct st1; [destruct H; discriminate|destruct H as (v & _ & [(H & _)|(y & H & _)]); discriminate].
  Qed.
End Fields.

(** An item between two pieces may be none of the separators: an item of the text
    is lost.  The text is one field, [6; 7]; it is read as two, and 7 is in neither. *)
Lemma field_race modulus : 0 < modulus -> exists h (x : @shared nat) b,
  runs Nat.eqb modulus (while (fun x => negb (Nat.eqb x 0))) (fresh [None] 0) buffer_new h (Took [6] x b) /\
  appended h = [[6]; [7]] /\ version x < modulus /\ done_flag x = true /\ ahead (sh_heap x) (sh_tail x) b [[7]].
Proof. intros M. race_steps modulus (fun x : nat => negb (Nat.eqb x 0)) M. Qed.

Theorem C84_fields_refuted modulus : 0 < modulus -> exists h (x : @shared nat) b,
  commits odd_up [[6]; [7]] (appended h) /\ left_with x b [] /\
  folds Nat.eqb modulus (fields Nat.eqb 0) snoc false [] (fresh [None] 0) buffer_new h (Took [[6]; []] x b) /\
  joined_by 0 [[6; 7]] = concat [[6]; [7]].
Proof.
  intros M. destruct (field_race modulus M) as (h & x & b & R & AP & V & D & A).
  set (after := PThen (fun e : Miss unit => (e, false)) (PLook (@maybe_looker nat)) (fun after =>
         PDone (Some [6], match after with Some _ => false | None => true end)) : lparser nat (option (list nat) * bool) (Miss unit * bool)).
  assert (HO : all_honest after) by (split; [apply maybe_honest|intros; exact Logic.I]).
  destruct (C82_own_finishes Nat.eqb nat_eq_ok modulus _ _ after HO x b [[7]] V A D) as (h1 & r & R1).
  destruct (run_own Nat.eqb nat_eq_ok modulus _ _ _ _ _ _ _ R1 HO [[7]] V A D) as (Q1 & H).
  destruct r as [o x1 b1|e x1 b1]; destruct H as (V1 & D1 & s & P & q1 & A1 & S1); [|discriminate]. injection P as <- <-.
  destruct (C82_own_finishes Nat.eqb nat_eq_ok modulus _ _ _ (fields_honest Nat.eqb 0 false) x1 b1 q1 V1 A1 D1) as (h2 & r & R2).
  destruct (run_early Nat.eqb nat_eq_ok modulus _ _ _ _ _ _ _ R2 (fields_itemwise Nat.eqb 0 false) true q1 V1 A1 (fun _ => D1)) as (V2 & q2 & t2 & A2 & D2 & M2).
  destruct (run_own Nat.eqb nat_eq_ok modulus _ _ _ _ _ _ _ R2 (fields_honest Nat.eqb 0 false) q1 V1 A1 D1) as (Q2 & _).
  specialize (M2 [] (fun _ => eq_refl)). rewrite !app_nil_r in M2.
  apply concat_same in S1. cbn in S1. rewrite Q2, app_nil_r, S1 in M2. apply (fields_round Nat.eqb 0 nat_eq_ok false) in M2.
  destruct M2 as (v & _ & [(M2 & L2 & _)|(y & _ & L2 & _)]); [|now apply app_cons_not_nil in L2]. symmetry in L2. apply app_eq_nil in L2 as (-> & L2).
  destruct r as [o x2 b2|e x2 b2]; [|discriminate]. injection M2 as ->. cbn [shared_of buffer_of] in *.
  exists (([] ++ h2) ++ h1 ++ h), x2, b2. rewrite !appended_app, Q1, Q2, AP. split.
  { unfold commits. eexists _, _. split; [vm_compute; reflexivity|]. eapply chain_node; [reflexivity|]. eapply chain_node; [reflexivity|]. now constructor. }
  split; [exists q2; auto|]. split; [|reflexivity].
  eapply fo_more; [eapply run_then; [exact R|exact R1]|]. eapply fo_more; [exact R2|]. eapply fo_stop. apply run_done.
Qed.

(** ** It does happen *)
(** Whoever waits for more after [seen] can be told then that there is none,
    although [unseen] has come. *)
Section Reached.
  Context {T O : Type} (eqb : T -> T -> bool) (modulus : nat) (k : @looker T O).
  Hypothesis eq_ok : decides_eq eqb.
  Hypothesis room : 0 < modulus.
  Hypothesis by_one : itemwise (PLook k).
  Variables (seen unseen : list T) (st : lk_state k).
  Hypothesis waits : lk_step k (lk_init k) (Some seen) = inl st.

  Definition late_hist : list (@revent T) :=
    [EReturn None; EDone; EAppend unseen; ELook; EWait; ENext; EReturn (Some seen); ENext; EAppend seen].
  Definition late_shared : @shared T := Shared [Some (seen, 1); Some (unseen, 2); None] 2 0 true false 0 false.
  Definition late_state : @sstate T := SState late_shared (GIter 0 1) None SIdle late_hist.

  Lemma late_reached :
    lreach modulus k (fresh [None] 0) buffer_new (after k buffer_new late_state (lk_step k st None)) /\ sreach modulus (fresh [None] 0) buffer_new late_state.
  Proof.
    split.
    - pose proof (lr_init modulus k (fresh (@cons (option (list T * nat)) None nil) 0) buffer_new) as R. cbn in R.
      eapply lr_step in R; [|apply lv_loader; eapply (ls_append modulus) with (seg := seen); reflexivity]. cbn in R.
      eapply lr_step in R; [|apply lv_poll; [apply ss_next|discriminate]]. cbn in R.
      eapply lr_step in R; [|apply lv_poll; [apply ss_poll|discriminate]]. cbn in R.
      eapply lr_step in R; [|apply lv_poll; [apply ss_fut_none|discriminate]]. cbn in R.
      eapply lr_step in R; [|eapply lv_answer with (r := Some seen); [eapply ss_next1_some; reflexivity|reflexivity]].
      rewrite waits in R. cbn in R.
      eapply lr_step in R; [|apply lv_poll; [apply ss_next|discriminate]]. cbn in R.
      eapply lr_step in R; [|apply lv_poll; [apply ss_poll|discriminate]]. cbn in R.
      eapply lr_step in R; [|apply lv_poll; [apply ss_fut_none|discriminate]]. cbn in R.
      eapply lr_step in R; [|apply lv_poll; [apply ss_next1_none; reflexivity|discriminate]]. cbn in R.
      eapply lr_step in R; [|apply lv_poll; [apply ss_wait|discriminate]]. cbn in R.
      eapply lr_step in R; [|apply lv_poll; [apply ss_next2_none; reflexivity|discriminate]]. cbn in R.
      eapply lr_step in R; [|apply lv_loader; eapply (ls_append modulus) with (seg := unseen); reflexivity]. cbn in R.
      eapply lr_step in R; [|apply lv_loader, ls_done]. cbn in R.
      eapply lr_step in R; [|eapply lv_answer with (r := None); [apply ss_done; reflexivity|reflexivity]]. exact R.
    - pose proof (sr_init modulus (fresh (@cons (option (list T * nat)) None nil) 0) buffer_new) as R. cbn in R.
      eapply sr_step in R; [|apply ss_loader; eapply (ls_append modulus) with (seg := seen); reflexivity]. cbn in R.
      eapply sr_step in R; [|apply ss_next]. eapply sr_step in R; [|apply ss_poll]. eapply sr_step in R; [|apply ss_fut_none].
      eapply sr_step in R; [|eapply ss_next1_some; reflexivity]. cbn in R.
      eapply sr_step in R; [|apply ss_next]. eapply sr_step in R; [|apply ss_poll]. eapply sr_step in R; [|apply ss_fut_none].
      eapply sr_step in R; [|apply ss_next1_none; reflexivity]. eapply sr_step in R; [|apply ss_wait]. eapply sr_step in R; [|apply ss_next2_none; reflexivity].
      eapply sr_step in R; [|apply ss_loader; eapply (ls_append modulus) with (seg := unseen); reflexivity]. cbn in R.
      eapply sr_step in R; [|apply ss_loader, ls_done]. eapply sr_step in R; [|apply ss_done; reflexivity]. exact R.
  Qed.

  Theorem C110_reached : exists h r, runs eqb modulus (PLook k) (fresh [None] 0) buffer_new h r /\
    appended h = [seen; unseen] /\ done_flag (shared_of r) = true /\
    answer r = fst (reads eqb (PLook k) seen) /\ left_with (shared_of r) (buffer_of r) (snd (reads eqb (PLook k) seen) ++ unseen).
  Proof.
    destruct late_reached as (L & S). destruct by_one as (HO & _ & ONE). pose proof HO as (M & G & ME).
    assert (RM : version (fresh (@cons (option (list T * nat)) None nil) 0) < modulus) by exact room.
    assert (A0 : ahead (sh_heap (fresh (@cons (option (list T * nat)) None nil) 0)) 0 buffer_new []) by (exists []; split; [now constructor|split; reflexivity]).
    assert (W : witnessed k [seen] (inl st)) by (rewrite <- waits; exact (witnessed_next k [] _ seen (witnessed_none k))).
    assert (SE : settle k (lk_init k) [seen] = lk_step k st None) by (cbn [settle]; now rewrite waits).
    assert (RD : reads eqb (PLook k) seen = match lk_step k st None with inr (VTake n o) => (ROk o, skipn n seen) | _ => (RErr (MkMiss tt), seen) end).
    { cbn [reads]. rewrite <- SE, (ONE [seen]). cbn [concat]. now rewrite app_nil_r. }
    rewrite RD. destruct (G st) as (v & E). pose proof (ME [seen] st) as FT. rewrite E in L |- *. destruct v as [n o|]; cbn [after] in L.
    - specialize (FT n o W E). cbn [concat] in FT. rewrite app_nil_r in FT.
      assert (A1 : ahead (sh_heap late_shared) (sh_tail late_shared) buffer_new [seen; unseen]) by exact (ahead_now modulus _ _ _ RM A0 _ S).
      destruct (advance_ends modulus k (fresh [None] 0) buffer_new RM late_hist o late_shared n (ainit late_shared buffer_new n) [seen; unseen])
        as (a & LD & RY); [reflexivity|exact room|exact A1|constructor|discriminate|].
      assert (X : forall l1 l2, leads modulus k l1 l2 -> lreach modulus k (fresh [None] 0) buffer_new l1 -> lreach modulus k (fresh [None] 0) buffer_new l2).
      { induction 1; auto. intros. apply IHleads. econstructor; eauto. }
      pose proof (X _ _ LD L) as R.
      destruct (own_reach modulus k (fresh [None] 0) buffer_new HO _ R) as (s & n' & S' & HH & AR & WW).
      assert (EN : n' = n).
      { destruct WW as [WW|(st' & h2 & WW & E' & HE)].
        - pose proof (witnessed_settle k _ _ WW []) as Y. change (returned late_hist ++ []) with [seen] in Y. rewrite SE, E in Y. now injection Y.
        - injection HE as <-. pose proof (witnessed_settle k _ _ WW []) as Y. change (_ ++ []) with [seen] in Y. rewrite SE, E in Y. cbn [settle] in Y.
          rewrite E' in Y. now injection Y. }
      subst n'. assert (DS : done_flag (s_sh s) = true).
      { apply (i_shared _ _ _ _ (sreach_inv modulus _ [] room _ _ _ eq_refl RM A0 S')). rewrite HH. cbn. tauto. }
      pose proof (ahead_now modulus _ _ _ RM A0 _ S') as A2. pose proof (version_now modulus _ _ _ RM A0 _ S') as V2.
      pose proof (adone_appended modulus (fresh [None] 0) buffer_new RM (s_sh s) n a DS V2 _ A2 AR) as Q.
      assert (F : n <= length (concat ([] ++ appended (s_hist s)))) by (rewrite HH; cbn; rewrite app_nil_r, app_length; lia).
      destruct (drop_some n ([] ++ appended (s_hist s) ++ appended (a_hist a))) as (s' & D); [rewrite Q, app_nil_r; exact F|].
      destruct (placed modulus _ _ [] RM A0 s n a s' S' AR RY F D) as (q' & A' & SA).
      exists (a_hist a ++ late_hist), (Took o (a_sh a) (a_buf a)). split; [apply run_look; exact (pr_took R RY)|].
      split; [rewrite appended_app, Q; reflexivity|]. split; [exact (adone_stays modulus buffer_new (s_sh s) n a DS AR)|].
      split; [reflexivity|]. exists q'. split; [exact A'|]. rewrite (concat_same _ _ SA), (drop_content _ _ _ D), Q, HH. cbn.
      rewrite app_nil_r, skipn_app. replace (n - length seen) with 0 by lia. reflexivity.
    - exists late_hist, (Failed (MkMiss tt) late_shared buffer_new). split; [apply run_look; exact (pr_failed L)|].
      split; [reflexivity|]. split; [reflexivity|]. split; [reflexivity|].
      exists [seen; unseen]. split; [exact (ahead_now modulus _ _ _ RM A0 _ S)|]. cbn. now rewrite app_nil_r.
  Qed.
End Reached.

(** ** Cases *)
(** The race: only [6] of the text was seen. *)
Example C110_case_once : exists h (x : @shared nat) b rest,
  itemwise (while (fun x => negb (Nat.eqb x 0))) /\
  runs Nat.eqb 1 (while (fun x => negb (Nat.eqb x 0))) (fresh [None] 0) buffer_new h (Took [6] x b) /\ left_with x b rest /\
  may_read Nat.eqb _ _ (while (fun x => negb (Nat.eqb x 0))) false [6; 7] (ROk [6]) rest true /\
  ~ may_read Nat.eqb _ _ (while (fun x => negb (Nat.eqb x 0))) false [6; 7] (ROk [6]) rest false /\
  done_flag x = true.
Proof.
  destruct (field_race 1 Nat.lt_0_1) as (h & x & b & R & AP & V & D & A).
  pose proof (fields_itemwise Nat.eqb 0 false) as (IW & _).
  assert (CM : commits odd_up [[6]; [7]] (appended h)).
  { rewrite AP. unfold commits. eexists _, _. split; [vm_compute; reflexivity|]. eapply chain_node; [reflexivity|]. eapply chain_node; [reflexivity|]. now constructor. }
  assert (GR : forall n, n <= odd_up n) by (intros n; unfold odd_up; destruct (Nat.even n); lia).
  destruct (C110_once Nat.eqb 1 _ _ odd_up _ (fresh [None] 0) [] [] h (Took [6] x b) nat_eq_ok IW GR CM Nat.lt_0_1) as (told & taken & rest & E & M & LW & DN);
    [| |exact R|auto|]; [|now rewrite app_nil_r|].
  { exists []. split; [now constructor|]. split; reflexivity. }
  rewrite keeps_odd in M. cbn [concat app answer shared_of buffer_of] in *. rewrite app_nil_r in M.
  assert (N : ~ may_read Nat.eqb _ _ (while (fun x => negb (Nat.eqb x 0))) false [6; 7] (ROk [6]) rest false).
  { intros X. apply C110_whole in X. rewrite while_reads in X. discriminate. }
  exists h, x, b, rest. split; [exact IW|]. split; [exact R|]. split; [exact LW|]. destruct told; [|contradiction]. auto.
Qed.
(** The same parser met a 0 before the loader was done: it has the whole field. *)
Example C110_case_before_done : exists h (x : @shared nat) b,
  runs Nat.eqb 1 (while (fun x => negb (Nat.eqb x 0))) (fresh [None] 0) buffer_new h (Took [6] x b) /\
  appended h = [[6; 0; 8]] /\ done_flag x = false /\ left_with x b [0; 8] /\
  forall late, reads Nat.eqb (while (fun x => negb (Nat.eqb x 0))) ([6; 0; 8] ++ late) = (ROk [6], [0; 8] ++ late).
Proof.
  pose proof (lr_init 1 (@while_looker nat (fun x => negb (Nat.eqb x 0))) (fresh (@cons (option (list nat * nat)) None nil) 0) buffer_new) as R. tidy_live R.
  eapply lr_step in R; [|apply lv_loader; eapply (ls_append 1) with (seg := [6; 0; 8]); reflexivity]. tidy_live R.
  eapply lr_step in R; [|apply lv_poll; [apply ss_next|discriminate]]. tidy_live R.
  eapply lr_step in R; [|apply lv_poll; [apply ss_poll|discriminate]]. tidy_live R.
  eapply lr_step in R; [|apply lv_poll; [apply ss_fut_none|discriminate]]. tidy_live R.
  eapply lr_step in R; [|eapply lv_answer with (r := Some [6; 0; 8]); [eapply ss_next1_some; reflexivity|reflexivity]]. tidy_live R.
  eapply lr_step in R; [|apply lv_advance; [apply as_poll|discriminate]]. tidy_live R.
  eapply lr_step in R; [|apply lv_advance; [apply as_fut_none|discriminate]]. tidy_live R.
  eapply lr_step in R; [|apply lv_advance; [apply as_wait|discriminate]]. tidy_live R.
  eapply lr_step in R; [|apply lv_advance; [apply as_last; reflexivity|discriminate]]. tidy_live R.
  eapply lr_step in R; [|apply lv_advance; [apply as_all; reflexivity|discriminate]]. tidy_live R.
  eexists _, _, _. split; [apply run_look; exact (pr_took R eq_refl)|].
  split; [reflexivity|]. split; [reflexivity|]. split.
  - exists [[0; 8]]. split; [|reflexivity]. exists [[6; 0; 8]]. split; [|cbn; auto with arith]. eapply chain_node; [reflexivity|]. now constructor.
  - intros late. rewrite while_reads. reflexivity.
Qed.

(** Of the one field [3; 6; 7] it takes [3; 6]. *)
Example C110_case_reached : exists h r, runs Nat.eqb 1 (while (fun x => negb (Nat.eqb x 0))) (fresh [None] 0) buffer_new h r /\
  appended h = [[3; 6]; [7; 0; 8]] /\ done_flag (shared_of r) = true /\ answer r = ROk [3; 6] /\ left_with (shared_of r) (buffer_of r) [7; 0; 8] /\
  fst (reads Nat.eqb (while (fun x => negb (Nat.eqb x 0))) ([3; 6] ++ [7; 0; 8])) = ROk [3; 6; 7].
Proof.
  pose proof (fields_itemwise Nat.eqb 0 false) as (IW & _).
  destruct (C110_reached Nat.eqb 1 (while_looker (fun x => negb (Nat.eqb x 0))) Nat.lt_0_1 IW [3; 6] [7; 0; 8] [3; 6] eq_refl) as (h & r & R & AP & D & AN & LW).
  change (PLook (while_looker ?w)) with (while w) in AN, LW. rewrite while_reads in AN, LW. rewrite while_reads. exists h, r. auto 8.
Qed.

Print Assumptions C110_once.
Print Assumptions C110_before_done.
Print Assumptions C110_whole.
Print Assumptions C110_fold.
Print Assumptions C110_fold_before_done.
Print Assumptions C110_fields.
Print Assumptions C84_fields_refuted.
Print Assumptions C110_reached.
