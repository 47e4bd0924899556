(** * P_LiveOwn: parsers of the user's own that may succeed at the end, properties C79, C82 and C84. *)
From Coq Require Import Lia.
From Verif Require Import S_EndToEnd S_LiveJoinEnds L_Live L_LiveJoin L_LiveOwn L_EndToEnd P_Live P_LiveJoin P_LiveJoinEnds P_EndToEnd.

(** ** One such parser, whatever the loader does meanwhile *)
Section One.
  Context {T O : Type} (l : @looker T O) (modulus : nat).
  Hypothesis sincere : honest l.
  Variables (x0 : @shared T) (b : gbuffer) (q : list (list T)).
  Hypothesis version_small : version x0 < modulus.
  Hypothesis start : ahead (sh_heap x0) (sh_tail x0) b q.

  (** Its answer is that on what was there and the first of what has come; the
      rest is still there.  It should be all that has come. *)
  Theorem C79_own_partial h r : prim_runs modulus l x0 b h r ->
    match r with
    | Took o x b' => exists add1 add2 s', appended h = add1 ++ add2 /\
        look_parse l (Chunked (q ++ add1)) = Ret (Ok o (Chunked s')) /\ same_ahead x b' (s' ++ add2)
    | Failed e x b' => exists add1 add2 s', appended h = add1 ++ add2 /\
        look_parse l (Chunked (q ++ add1)) = Ret (Err e (Chunked s')) /\ same_ahead x b' (s' ++ add2)
    end.
  Proof.
    intros R. pose proof (own_answer modulus l x0 b q version_small start sincere h r R) as H.
    destruct r; destruct H as (_ & H); exact H.
  Qed.
  Theorem C79_own_no_panic s : lreach modulus l x0 b s ->
    match s with
    | LLook _ _ s | LMiss _ s => s_pc s <> SPanicked
    | LAdvance _ _ a => a_pc a <> APanicked
    end.
  Proof. exact (own_no_panic modulus l x0 b q version_small start sincere s). Qed.
End One.

(** ** Parsers built of them, on a source that is done *)
Section Joined.
  Context {T : Type} (eqb : T -> T -> bool).
  Hypothesis eq_ok : decides_eq eqb.
  Variable modulus : nat.

  Context {O E : Type} (p : lparser T O E).
  Hypothesis sincere : all_honest p.
  Variables (x0 : @shared T) (b : gbuffer) (q : list (list T)).
  Hypothesis version_small : version x0 < modulus.
  Hypothesis start : ahead (sh_heap x0) (sh_tail x0) b q.

  (** On a source that is done when it starts it answers as on the segments
      given all at once. *)
  Theorem C82_own_complete h r : done_flag x0 = true -> runs eqb modulus p x0 b h r ->
    match r with
    | Took o x b' => exists s', parse (built eqb p) (Chunked q) = Ret (Ok o (Chunked s')) /\ same_ahead x b' s'
    | Failed e x b' => exists s', parse (built eqb p) (Chunked q) = Ret (Err e (Chunked s')) /\ same_ahead x b' s'
    end.
  Proof.
    intros D R. destruct (run_own eqb eq_ok modulus _ _ _ _ _ _ _ R sincere q version_small start D) as (_ & H).
    destruct r; destruct H as (_ & _ & H); exact H.
  Qed.
  (** None of the primitive parsers that it starts panics, the source done or not. *)
  Theorem C82_own_no_panic x b' O' (l : @looker T O') s : starts eqb modulus p x0 b x b' -> honest l ->
    lreach modulus l x b' s ->
    match s with
    | LLook _ _ s | LMiss _ s => s_pc s <> SPanicked
    | LAdvance _ _ a => a_pc a <> APanicked
    end.
  Proof.
    intros S H R. destruct (starts_placed eqb eq_ok modulus _ _ _ _ _ _ _ S sincere q version_small start) as (V & q' & A).
    exact (own_no_panic modulus l x b' q' V A H s R).
  Qed.
End Joined.

(** It gets to its answer by itself once the source is done. *)
Theorem C82_own_finishes {T} (eqb : T -> T -> bool) (eq_ok : decides_eq eqb) modulus O E (p : lparser T O E) :
  all_honest p -> forall x b q, version x < modulus -> ahead (sh_heap x) (sh_tail x) b q ->
  done_flag x = true -> exists h r, runs eqb modulus p x b h r.
Proof.
  induction p as [|y|pat|O l|O0 E0 O1 E1 p0 IH0 p1 IH1|O E U p IH f|O E U p IH f|O E O' E' from p IH f|T0 T1 U E i0 i1 p IH|O T0 T1 U i0 i1 p IH|O E p IH|O E p IH|O E o0|O E e0|O E O' E' from p IH c IHc]; intros NE x b q V A D; cbn in NE.
  - destruct (own_ends modulus _ x b q V A (modest_honest _ any_modest) D) as (h & r & R). eexists _, _. constructor. exact R.
  - destruct (own_ends modulus _ x b q V A (modest_honest _ (the_modest eqb eq_ok y)) D) as (h & r & R). eexists _, _. constructor. exact R.
  - destruct (own_ends modulus _ x b q V A (modest_honest _ (atom_modest eqb eq_ok pat)) D) as (h & r & R). eexists _, _. constructor. exact R.
  - destruct NE as (M & _). destruct (own_ends modulus l x b q V A M D) as (h & r & R). eexists _, _. constructor. exact R.
  - destruct NE as (N0 & N1). destruct (IH0 N0 x b q V A D) as (h0 & [o0 x0 b0|e x0 b0] & R0); [|eexists _, _; eapply run_join_first; eauto].
    destruct (run_own eqb eq_ok modulus _ _ _ _ _ _ _ R0 N0 q V A D) as (_ & V1 & D1 & s1 & _ & q2 & A1 & _).
    destruct (IH1 N1 x0 b0 q2 V1 A1 D1) as (h1 & [o1 x1 b1|e x1 b1] & R1); eexists _, _.
    + eapply run_join; eauto.
    + eapply run_join_last; eauto.
  - destruct (IH NE x b q V A D) as (h & [o x0 b0|e x0 b0] & R); eexists _, _; [eapply run_map|eapply run_map_fails]; eauto.
  - destruct (IH NE x b q V A D) as (h & [o x0 b0|e x0 b0] & R); eexists _, _; [eapply run_map_err|eapply run_map_err_fails]; eauto.
  - destruct (IH NE x b q V A D) as (h & [o x0 b0|e x0 b0] & R).
    + destruct (f o) eqn:F; eexists _, _; [eapply run_and_then|eapply run_and_then_refused]; eauto.
    + eexists _, _. eapply run_and_then_fails; eauto.
  - destruct (IH NE x b q V A D) as (h & [o x0 b0|e x0 b0] & R); eexists _, _; [eapply run_unify|eapply run_unify_fails]; eauto.
  - destruct (IH NE x b q V A D) as (h & [o x0 b0|e x0 b0] & R); eexists _, _; [eapply run_unify_err|eapply run_unify_err_fails]; eauto.
  - destruct (IH NE x b q V A D) as (h & r & R). eexists _, _. eapply run_ref; eauto.
  - destruct (IH NE x b q V A D) as (h & r & R). eexists _, _. eapply run_boxed; eauto.
  - eexists _, _. apply run_done.
  - eexists _, _. apply run_fail.
  - destruct NE as (N0 & N1). destruct (IH N0 x b q V A D) as (h0 & [o0 x0 b0|e x0 b0] & R0); [|eexists _, _; eapply run_then_fails; eauto].
    destruct (run_own eqb eq_ok modulus _ _ _ _ _ _ _ R0 N0 q V A D) as (_ & V1 & D1 & s1 & _ & q2 & A1 & _).
    destruct (IHc o0 (N1 o0) x0 b0 q2 V1 A1 D1) as (h1 & r & R1). eexists _, _. eapply run_then; eauto.
Qed.

(** ** From the chunks of the source to the answer, once the loader is done *)
Lemma own_text {T} (eqb : T -> T -> bool) modulus {O E} (p : lparser T O E) ss x0 :
  decides_eq eqb -> all_honest p -> uncut eqb p ss ->
  version x0 < modulus -> ahead (sh_heap x0) (sh_tail x0) buffer_new ss -> done_flag x0 = true ->
  (exists h r, runs eqb modulus p x0 buffer_new h r) /\
  forall h r, runs eqb modulus p x0 buffer_new h r ->
  match r with
  | Took o x b => exists rest, reads eqb p (concat ss) = (ROk o, rest) /\ left_with x b rest
  | Failed e x b => exists rest, reads eqb p (concat ss) = (RErr e, rest) /\ left_with x b rest
  end.
Proof.
  intros eq_ok HO U V A D.
  split; [exact (C82_own_finishes eqb eq_ok modulus _ _ p HO x0 buffer_new ss V A D)|].
  intros h r R. pose proof (C82_own_complete eqb eq_ok modulus p HO x0 buffer_new ss V A h r D R) as CC.
  destruct (honest_reads eqb eq_ok p HO ss U) as (s' & P' & S'). unfold on in P'.
  destruct (reads_suffix eqb p (concat ss)) as (before & B).
  apply concat_same in S'. rewrite cut_concat in S'.
  assert (S2 : concat s' = snd (reads eqb p (concat ss))).
  { rewrite S'. clear - B. revert B. generalize (snd (reads eqb p (concat ss))). intros rest ->.
    now rewrite app_length, Nat.add_sub, skipn_length_app. }
  destruct r as [o x b|e x b]; destruct CC as (s & P & q' & A' & SA); rewrite P in P';
    destruct (reads eqb p (concat ss)) as [[o'|e'] rest]; cbn [fst snd] in *; try discriminate; injection P' as <- <-;
    exists rest; (split; [reflexivity|]); exists q'; (split; [exact A'|]); rewrite (concat_same _ _ SA); exact S2.
Qed.
Theorem C84_own_loaded_partial {T} (eqb : T -> T -> bool) modulus {O E} (p : lparser T O E) chunks grow ss x0 :
  decides_eq eqb -> all_honest p -> (forall n, n <= grow n) -> commits grow chunks ss -> uncut eqb p ss ->
  version x0 < modulus -> ahead (sh_heap x0) (sh_tail x0) buffer_new ss -> done_flag x0 = true ->
  (exists h r, runs eqb modulus p x0 buffer_new h r) /\
  forall h r, runs eqb modulus p x0 buffer_new h r ->
  match r with
  | Took o x b => exists rest, reads eqb p (keeps grow 0 0 chunks) = (ROk o, rest) /\ left_with x b rest
  | Failed e x b => exists rest, reads eqb p (keeps grow 0 0 chunks) = (RErr e, rest) /\ left_with x b rest
  end.
Proof.
  intros eq_ok HO grows CM U V A D. rewrite <- (text_loaded chunks grow ss grows CM). now apply own_text.
Qed.

(** ** The items up to the first that is not wanted *)
Section While.
  Context {T : Type} (eqb : T -> T -> bool) (wanted : T -> bool).
  Hypothesis eq_ok : decides_eq eqb.

  Lemma leading_all s : forallb wanted s = true -> leading wanted s = s.
  Proof. induction s as [|x s IH]; [reflexivity|]. cbn. destruct (wanted x); [|discriminate]. intros F. now rewrite IH. Qed.
  Lemma leading_app s1 s2 : leading wanted (s1 ++ s2) = if forallb wanted s1 then s1 ++ leading wanted s2 else leading wanted s1.
  Proof. induction s1 as [|x s1 IH]; [reflexivity|]. cbn. destruct (wanted x); [|reflexivity]. rewrite IH. cbn. now destruct (forallb wanted s1). Qed.
  Lemma leading_most s : exists rest, s = leading wanted s ++ rest.
  Proof. induction s as [|x s (r & IH)]; [now exists []|]. cbn. destruct (wanted x); [exists r; cbn; congruence|now exists (x :: s)]. Qed.
  Lemma leading_is s o rest : s = o ++ rest /\ (forall x, In x o -> wanted x = true) /\ match rest with y :: _ => wanted y = false | [] => True end <->
    leading wanted s = o /\ skipn (length o) s = rest.
  Proof.
    split.
    - intros (-> & F & N). rewrite skipn_length_app. split; [|reflexivity]. rewrite leading_app.
      rewrite (proj2 (forallb_forall wanted o) F). destruct rest as [|y rest]; cbn; [apply app_nil_r|]. now rewrite N, app_nil_r.
    - intros (<- & <-). clear. induction s as [|x s (E & F & N)]; [cbn; auto|]. cbn [leading].
      destruct (wanted x) eqn:W; cbn [length skipn app].
      + split; [congruence|]. split; [|exact N]. intros y [<-|I]; auto.
      + split; [reflexivity|]. split; [intros y []|exact W].
  Qed.

  Lemma while_settle q : forall st, settle (while_looker wanted) st q =
    inr (VTake (length st + length (leading wanted (concat q))) (st ++ leading wanted (concat q))).
  Proof.
    induction q as [|s q IH]; intros st; cbn [settle concat lk_step while_looker].
    - cbn [leading length]. now rewrite Nat.add_0_r, app_nil_r.
    - rewrite leading_app. destruct (forallb wanted s); [|reflexivity].
      change (S_Live.settle (while_looker wanted) (st ++ s) q = inr (VTake (length st + length (s ++ leading wanted (concat q))) (st ++ s ++ leading wanted (concat q)))).
      rewrite IH, !app_length, !app_assoc, !Nat.add_assoc. reflexivity.
  Qed.
  Lemma while_saw ss r : witnessed (while_looker wanted) ss r ->
    match r with
    | inl st => st = concat ss
    | inr (VTake n _) => n <= length (concat ss)
    | inr VMiss => True
    end.
  Proof.
    induction 1 as [|ss st s W IH]; [reflexivity|]. cbn [lk_step while_looker]. rewrite concat_app. cbn [concat]. rewrite app_nil_r.
    destruct (forallb wanted s) eqn:F; [congruence|]. subst st.
    destruct (leading_most s) as (rest & E). apply (f_equal (@length T)) in E. rewrite !app_length in *. lia.
  Qed.
  Lemma while_honest : all_honest (while wanted).
  Proof.
    cbn [all_honest while]. split; [split; [|split]|].
    - intros ss n o W. exact (while_saw _ _ W).
    - intros st. eexists. reflexivity.
    - intros ss st n o W E. apply while_saw in W. cbn in E. injection E as <- _. now rewrite W.
    - intros ss st _. cbn. now rewrite app_nil_r.
  Qed.
  Lemma while_uncut q : uncut eqb (while wanted) q.
  Proof. cbn [uncut while]. intros some rest _. now rewrite !while_settle, one_each_concat. Qed.
  Lemma while_reads s : reads eqb (while wanted) s = (ROk (leading wanted s), skipn (length (leading wanted s)) s).
  Proof. cbn [reads while]. change (lk_init (while_looker wanted)) with (@nil T). rewrite while_settle, one_each_concat. reflexivity. Qed.

  (** Once the loader is done, exactly the longest run of wanted items is taken,
      however the source is cut; and it is always taken. *)
  Theorem C84_while_done modulus chunks ss x0 : commits odd_up chunks ss -> version x0 < modulus ->
    ahead (sh_heap x0) (sh_tail x0) buffer_new ss -> done_flag x0 = true ->
    (forall o rest, (exists h x b, runs eqb modulus (while wanted) x0 buffer_new h (Took o x b) /\ left_with x b rest) <->
      concat chunks = o ++ rest /\ (forall x, In x o -> wanted x = true) /\ match rest with y :: _ => wanted y = false | [] => True end) /\
    (forall h e x b, ~ runs eqb modulus (while wanted) x0 buffer_new h (Failed e x b)).
  Proof.
    intros CM V A D.
    assert (GR : forall n, n <= odd_up n) by (intros n; unfold odd_up; destruct (Nat.even n); lia).
    destruct (C84_own_loaded_partial eqb modulus (while wanted) chunks odd_up ss x0 eq_ok while_honest GR CM (while_uncut ss) V A D) as (HAS & ALL).
    rewrite keeps_odd in ALL. rewrite while_reads in ALL. split.
    - intros o rest. rewrite leading_is. split.
      + intros (h & x & b & R & LW). destruct (ALL _ _ R) as (rest' & E & LW'). injection E as EO ER. split; [exact EO|].
        rewrite <- EO, ER. destruct LW as (q1 & A1 & <-), LW' as (q2 & A2 & <-).
        assert (q1 = q2) as ->; [|auto]. destruct A1 as (s1 & C1 & H1), A2 as (s2 & C2 & H2).
        destruct (chain_unique _ _ _ _ _ _ C1 C2) as (-> & _). destruct s2; destruct H1 as (_ & ->), H2 as (_ & ->); reflexivity.
      + intros (<- & <-). destruct HAS as (h & [o x b|e x b] & R); destruct (ALL _ _ R) as (rest' & E & LW); [|discriminate].
        injection E as <- <-. eauto.
    - intros h e x b R. destruct (ALL _ _ R) as (rest & E & _). discriminate.
  Qed.
  (** While the loader runs it is the longest run of what was there and the first of what has come. *)
  Theorem C84_while_partial modulus x0 b q h o x b' : version x0 < modulus -> ahead (sh_heap x0) (sh_tail x0) b q ->
    runs eqb modulus (while wanted) x0 b h (Took o x b') ->
    exists seen unseen rest, appended h = seen ++ unseen /\ concat (q ++ seen) = o ++ rest /\
      (forall y, In y o -> wanted y = true) /\ match rest with y :: _ => wanted y = false | [] => True end /\
      left_with x b' (rest ++ concat unseen).
  Proof.
    intros V A R. apply run_look_inv in R. destruct while_honest as (HO & _).
    destruct (C79_own_partial (while_looker wanted) modulus HO x0 b q V A h _ R) as (seen & unseen & s & EA & P & q' & A' & S').
    exists seen, unseen, (concat s). unfold look_parse in P. change (segments (Chunked ?q)) with q in P.
    change (lk_init (while_looker wanted)) with (@nil T) in P. rewrite while_settle in P. cbn [app length Nat.add] in P.
    destruct (leading_most (concat (q ++ seen))) as (rest & E).
    assert (F : length (leading wanted (concat (q ++ seen))) <= length (concat (q ++ seen))) by (rewrite E at 2; rewrite app_length; lia).
    destruct (drop_some _ _ F) as (s1 & D). cbn [advance chunked_sequence ck_segs] in P. rewrite D in P. cbn [bind] in P. injection P as <- <-.
    pose proof (drop_content _ _ _ D) as DC.
    destruct (proj2 (leading_is (concat (q ++ seen)) _ _) (conj eq_refl eq_refl)) as (E1 & E2 & E3). rewrite <- DC in E1, E3.
    split; [exact EA|]. split; [exact E1|]. split; [exact E2|]. split; [exact E3|].
    exists q'. split; [exact A'|]. now rewrite (concat_same _ _ S'), concat_app.
  Qed.
End While.

(** ** While the loader runs C82 is false of them *)
(** The race itself, for any that wants 6. *)
Ltac race_steps modulus wanted M :=
  let R := fresh "R" in
  pose proof (lr_init modulus (@while_looker nat wanted) (fresh (@cons (option (list nat * nat)) None nil) 0) buffer_new) as R; tidy_live R;
  eapply lr_step in R; [|apply lv_loader; eapply (ls_append modulus) with (seg := [6]); reflexivity]; tidy_live R;
  eapply lr_step in R; [|apply lv_poll; [apply ss_next|discriminate]]; tidy_live R;
  eapply lr_step in R; [|apply lv_poll; [apply ss_poll|discriminate]]; tidy_live R;
  eapply lr_step in R; [|apply lv_poll; [apply ss_fut_none|discriminate]]; tidy_live R;
  eapply lr_step in R; [|eapply lv_answer with (r := Some [6]); [eapply ss_next1_some; reflexivity|reflexivity]]; tidy_live R;
  eapply lr_step in R; [|apply lv_poll; [apply ss_next|discriminate]]; tidy_live R;
  eapply lr_step in R; [|apply lv_poll; [apply ss_poll|discriminate]]; tidy_live R;
  eapply lr_step in R; [|apply lv_poll; [apply ss_fut_none|discriminate]]; tidy_live R;
  eapply lr_step in R; [|apply lv_poll; [apply ss_next1_none; reflexivity|discriminate]]; tidy_live R;
  eapply lr_step in R; [|apply lv_poll; [apply ss_wait|discriminate]]; tidy_live R;
  eapply lr_step in R; [|apply lv_poll; [apply ss_next2_none; reflexivity|discriminate]]; tidy_live R;
  eapply lr_step in R; [|apply lv_loader; eapply (ls_append modulus) with (seg := [7]); reflexivity]; tidy_live R;
  eapply lr_step in R; [|apply lv_loader, ls_done]; tidy_live R;
  eapply lr_step in R; [|eapply lv_answer with (r := None); [apply ss_done; reflexivity|reflexivity]]; tidy_live R;
  eapply lr_step in R; [|apply lv_advance; [apply as_poll|discriminate]]; tidy_live R;
  eapply lr_step in R; [|apply lv_advance; [apply as_fut_none|discriminate]]; tidy_live R;
  eapply lr_step in R; [|apply lv_advance; [apply as_wait|discriminate]]; tidy_live R;
  eapply lr_step in R; [|apply lv_advance; [apply as_turn; reflexivity|discriminate]]; tidy_live R;
  eapply lr_step in R; [|apply lv_advance; [apply as_last; reflexivity|discriminate]]; tidy_live R;
  eapply lr_step in R; [|apply lv_advance; [apply as_all; reflexivity|discriminate]]; tidy_live R;
  eexists _, _, _;
  split; [apply run_look; exact (pr_took R eq_refl)|];
  split; [reflexivity|];
  split; [exact M|];
  split; [reflexivity|];
  exists [[7]];
  split; [|cbn; auto with arith];
  eapply chain_node; [reflexivity|];
  now constructor.
(** Told of the end too early, a parser that takes all there is takes [6], and
    the one behind it takes the 7 that has come since.  On segments that are all
    there nothing is left behind it, whatever they are. *)
Lemma while_race modulus : 0 < modulus -> exists h (x : @shared nat) b,
  runs Nat.eqb modulus (while (fun _ => true)) (fresh [None] 0) buffer_new h (Took [6] x b) /\
  appended h = [[6]; [7]] /\ version x < modulus /\ done_flag x = true /\ ahead (sh_heap x) (sh_tail x) b [[7]].
Proof.
  intros M. race_steps modulus (fun _ : nat => true) M.
Qed.

Theorem C82_own_refuted modulus : 0 < modulus ->
  let p := PJoin (while (fun _ : nat => true)) PAny in
  all_honest p /\
  (exists h x b, runs Nat.eqb modulus p (fresh [None] 0) buffer_new h (Took ([6], 7) x b) /\ appended h = [[6]; [7]]) /\
  forall q o s, parse (built Nat.eqb p) (Chunked q) <> Ret (Ok o s).
Proof.
  intros M p. assert (HO : all_honest p) by (split; [apply while_honest|exact Logic.I]). split; [exact HO|]. split.
  - destruct (while_race modulus M) as (h & x & b & R & AP & V & D & A).
    destruct (C82_own_finishes Nat.eqb nat_eq_ok modulus _ _ PAny Logic.I x b [[7]] V A D) as (h1 & r & R1).
    destruct (run_own Nat.eqb nat_eq_ok modulus _ _ _ _ _ _ _ R1 Logic.I [[7]] V A D) as (Q1 & H).
    destruct r as [o x1 b1|e x1 b1]; destruct H as (_ & _ & s & P & _); [|discriminate]. injection P as <- _.
    eexists _, _, _. split; [eapply run_join; [exact R|exact R1]|]. now rewrite appended_app, Q1, AP, app_nil_r.
  - intros q o s P.
    assert (UC : uncut Nat.eqb p q) by (split; [apply while_uncut|intros; exact Logic.I]).
    destruct (honest_reads Nat.eqb nat_eq_ok p HO q UC) as (s' & P' & _). unfold on in P'. rewrite P in P'.
    unfold p in P'. cbn [reads] in P'. rewrite while_reads, leading_all, skipn_all in P' by (clear; induction (concat q); auto).
    discriminate.
Qed.
(** Nor is it the longest run of the text, although the loader has said that it is done. *)
Theorem C84_while_refuted modulus : 0 < modulus -> exists h (x : @shared nat) b,
  commits odd_up [[6]; [7]] (appended h) /\ done_flag x = true /\
  runs Nat.eqb modulus (while (fun _ => true)) (fresh [None] 0) buffer_new h (Took [6] x b) /\
  reads Nat.eqb (while (fun _ => true)) (concat [[6]; [7]]) = (ROk [6; 7], []).
Proof.
  intros M. destruct (while_race modulus M) as (h & x & b & R & AP & V & D & A).
  exists h, x, b. split; [|auto]. rewrite AP. unfold commits. eexists _, _. split; [vm_compute; reflexivity|].
  eapply chain_node; [reflexivity|]. eapply chain_node; [reflexivity|]. now constructor.
Qed.

(** ** Cases *)
(** The even items at the front of three chunks, across a segment; then the next one. *)
Example C84_case_while :
  let ss := [[2]; [4; 5; 6]] in
  let x0 := Shared [Some ([2], 1); Some ([4; 5; 6], 2); None] 2 0 true false 0 false in
  commits odd_up [[2]; [4; 5]; [6]] ss /\ ahead (sh_heap x0) (sh_tail x0) buffer_new ss /\
  (exists h x b, runs Nat.eqb 1 (while Nat.even) x0 buffer_new h (Took [2; 4] x b) /\ left_with x b [5; 6]) /\
  ~ (exists h x b, runs Nat.eqb 1 (while Nat.even) x0 buffer_new h (Took [2] x b) /\ left_with x b [4; 5; 6]) /\
  (exists h x b, runs Nat.eqb 1 (PJoin (while Nat.even) PAny) x0 buffer_new h (Took ([2; 4], 5) x b)) /\
  ~ well_made (while Nat.even).
Proof.
  intros ss x0.
  assert (CM : commits odd_up [[2]; [4; 5]; [6]] ss).
  { unfold commits. eexists _, _. split; [vm_compute; reflexivity|]. eapply chain_node; [reflexivity|]. eapply chain_node; [reflexivity|]. now constructor. }
  assert (A : ahead (sh_heap x0) (sh_tail x0) buffer_new ss).
  { exists ss. split; [|cbn; auto with arith]. eapply chain_node; [reflexivity|]. eapply chain_node; [reflexivity|]. now constructor. }
  assert (V : version x0 < 1) by (cbn; lia).
  destruct (C84_while_done Nat.eqb Nat.even nat_eq_ok 1 _ ss x0 CM V A eq_refl) as (W & _).
  split; [exact CM|]. split; [exact A|]. split; [|split; [|split]].
  - apply W. split; [reflexivity|]. split; [|reflexivity]. intros x [<-|[<-|[]]]; reflexivity.
  - intros X. apply W in X. destruct X as (_ & _ & X). discriminate.
  - assert (HO : all_honest (PJoin (while Nat.even) PAny)) by (split; [apply while_honest|exact Logic.I]).
    destruct (C82_own_finishes Nat.eqb nat_eq_ok 1 _ _ _ HO x0 buffer_new ss V A eq_refl) as (h & r & R).
    pose proof (C82_own_complete Nat.eqb nat_eq_ok 1 _ HO x0 buffer_new ss V A h r eq_refl R) as C.
    destruct r as [o x b|e x b]; destruct C as (s & P & _); cbn in P; [|discriminate]. injection P as <- _. eauto.
  - intros ((_ & G) & _). specialize (G []). discriminate.
Qed.

(** On a source that is done it is within the bound of C82_must_finish: it sees
    [2], hears the end, and takes it. *)
Example C82_case_greedy :
  let x := Shared (@cons (option (list nat * nat)) (Some ([2], 1)) [None]) 1 0 true false 0 false in
  all_honest (while Nat.even) /\ ahead (sh_heap x) (sh_tail x) buffer_new [[2]] /\ leaves Nat.eqb (while Nat.even) [[2]] = 1 /\
  exists k x' b', counts Nat.eqb 2 _ _ (while Nat.even) x buffer_new k (Answered (Took [2] x' b')) /\ 11 < k <= 29.
Proof.
  intros x. split; [apply while_honest|]. split; [|split; [reflexivity|]].
  - exists [[2]]. split; [|split; cbn; [auto|reflexivity]]. eapply chain_node; [reflexivity|]. apply chain_end. reflexivity.
  - eexists _, _, _. split; [constructor; eapply pc_took|].
    + poll ltac:(apply ss_next). poll ltac:(apply ss_poll). poll ltac:(apply ss_fut_none).
      answer (Some [2]) ltac:(eapply ss_next1_some; reflexivity).
      poll ltac:(apply ss_next). poll ltac:(apply ss_poll). poll ltac:(apply ss_fut_none).
      poll ltac:(eapply ss_next1_none; reflexivity). poll ltac:(apply ss_wait).
      poll ltac:(eapply ss_next2_none; reflexivity).
      answer (@None (list nat)) ltac:(apply ss_done; reflexivity).
      adv ltac:(apply as_poll). adv ltac:(apply as_fut_none). adv ltac:(apply as_wait).
      adv ltac:(eapply as_turn; reflexivity).
      adv ltac:(eapply as_last; reflexivity).
      adv ltac:(apply as_all; reflexivity). apply goes_here.
    + reflexivity.
    + lia.
Qed.

Print Assumptions C79_own_partial.
Print Assumptions C79_own_no_panic.
Print Assumptions C82_own_complete.
Print Assumptions C82_own_finishes.
Print Assumptions C82_own_no_panic.
Print Assumptions C82_own_refuted.
Print Assumptions C84_own_loaded_partial.
Print Assumptions C84_while_done.
Print Assumptions C84_while_partial.
Print Assumptions C84_while_refuted.
