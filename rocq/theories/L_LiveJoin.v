(** * L_LiveJoin: parsers joined while loaders run. *)
From Coq Require Import Lia.
From Verif Require Export S_LiveJoin L_Live.
From Verif Require Import P_Runner P_Live.

(** ** Tails of a list of segments *)
Section Tails.
  Context {T : Type}.
  Implicit Types (q Q : list (list T)).

  Inductive tail_of : list (list T) -> list (list T) -> Prop :=
  | tail_nil : tail_of [] []
  | tail_cut k s Q : k <= length s -> tail_of (skipn k s :: Q) (s :: Q)
  | tail_on s Q q : tail_of q Q -> tail_of q (s :: Q).

  Lemma solid_app q Q : solid (q ++ Q) = solid q ++ solid Q.
  Proof. apply filter_app. Qed.
  Lemma concat_solid q : concat (solid q) = concat q.
  Proof. unfold solid. induction q as [|[|x s] q IH]; cbn; rewrite ?IH; reflexivity. Qed.
  Lemma solid_cons s q : solid (s :: q) = (if length s =? 0 then [] else [s]) ++ solid q.
  Proof. now destruct s. Qed.
  Lemma solid_none q : length (concat q) = 0 -> solid q = [].
  Proof. unfold solid. induction q as [|[|x s] q IH]; cbn; auto. discriminate. Qed.

  Lemma tail_le q Q : tail_of q Q -> length (concat q) <= length (concat Q).
  Proof.
    induction 1 as [|k s Q L|s Q q H IH]; cbn; rewrite ?app_length, ?skipn_length; lia.
  Qed.
  Lemma tail_all q Q : tail_of q Q -> length (concat q) = length (concat Q) -> solid q = solid Q.
  Proof.
    induction 1 as [|k s Q L|s Q q H IH]; intros E; auto.
    - cbn [concat] in E. rewrite !app_length, skipn_length in E. rewrite !solid_cons, skipn_length.
      destruct (length s =? 0) eqn:Z; [apply Nat.eqb_eq in Z|apply Nat.eqb_neq in Z].
      + replace (length s - k =? 0) with true by (symmetry; apply Nat.eqb_eq; lia). reflexivity.
      + assert (k = 0) as -> by lia. rewrite Nat.sub_0_r. apply Nat.eqb_neq in Z. now rewrite Z.
    - cbn [concat] in E. rewrite app_length in E. pose proof (tail_le _ _ H).
      rewrite solid_cons, IH by lia. assert (length s = 0) as -> by lia. reflexivity.
  Qed.
  Lemma tail_same q Q : tail_of q Q -> forall q', tail_of q' Q -> length (concat q) = length (concat q') ->
    solid q = solid q'.
  Proof.
    induction 1 as [|k s Q L|s Q q H IH]; intros q' H' E; inversion H'; subst; auto.
    - cbn [concat] in E. rewrite !app_length, !skipn_length in E. assert (k = k0) as -> by lia. reflexivity.
    - cbn [concat] in E. rewrite app_length in E. pose proof (tail_le _ _ H1) as B.
      rewrite solid_cons. assert (length (skipn k s) = 0) as -> by lia. cbn [Nat.eqb app]. symmetry.
      apply tail_all; [auto|lia].
    - cbn [concat] in E. rewrite app_length in E. pose proof (tail_le _ _ H) as B.
      rewrite solid_cons. assert (length (skipn k s) = 0) as -> by lia. cbn [Nat.eqb app].
      apply tail_all; [auto|lia].
  Qed.

  Lemma drop_tail n Q q : ck_drop n Q = Some q -> tail_of q Q.
  Proof.
    revert n. induction Q as [|s Q IH]; intros n; cbn.
    - destruct n; [|discriminate]. injection 1 as <-. constructor.
    - destruct (n <=? length s) eqn:E; intros H; [|constructor; eauto].
      injection H as <-. constructor. now apply Nat.leb_le.
  Qed.
  Lemma drop_content n Q q : ck_drop n Q = Some q -> concat q = skipn n (concat Q).
  Proof.
    revert n. induction Q as [|s Q IH]; intros n; cbn.
    - destruct n; [|discriminate]. injection 1 as <-. reflexivity.
    - rewrite skipn_app. destruct (n <=? length s) eqn:E; intros H.
      + injection H as <-. apply Nat.leb_le in E. cbn. replace (n - length s) with 0 by lia. reflexivity.
      + apply Nat.leb_gt in E. rewrite (IH _ H), (skipn_all2 s) by lia. reflexivity.
  Qed.
  Lemma drop_some n Q : n <= length (concat Q) -> exists q, ck_drop n Q = Some q.
  Proof.
    revert n. induction Q as [|s Q IH]; intros n; cbn; intros L.
    - assert (n = 0) as -> by lia. now exists [].
    - rewrite app_length in L. destruct (n <=? length s) eqn:E; [eauto|]. apply Nat.leb_gt in E. apply IH. lia.
  Qed.
  Lemma drop_fits n Q q : ck_drop n Q = Some q -> n <= length (concat Q).
  Proof.
    revert n. induction Q as [|s Q IH]; intros n; cbn.
    - destruct n; [lia|discriminate].
    - rewrite app_length. destruct (n <=? length s) eqn:E; [apply Nat.leb_le in E; lia|].
      apply Nat.leb_gt in E. intros H. apply IH in H. lia.
  Qed.
  Lemma drop_more n Q q add : ck_drop n Q = Some q -> ck_drop n (Q ++ add) = Some (q ++ add).
  Proof.
    revert n. induction Q as [|s Q IH]; intros n; cbn.
    - destruct n; [|discriminate]. injection 1 as <-. destruct add; reflexivity.
    - destruct (n <=? length s); [|auto]. injection 1 as <-. reflexivity.
  Qed.

  Lemma drop_of_solid n Q q : ck_drop n Q = Some q ->
    exists q', ck_drop n (solid Q) = Some q' /\ solid q' = solid q.
  Proof.
    revert n q. induction Q as [|s Q IH]; intros n q; cbn -[solid].
    - destruct n; [|discriminate]. injection 1 as <-. exists []. auto.
    - destruct s as [|x s].
      + change (solid ([] :: Q)) with (solid Q). cbn [length]. destruct n; cbn [Nat.leb skipn Nat.sub].
        * injection 1 as <-. destruct (drop_some 0 Q ltac:(lia)) as (q' & E). destruct (IH _ _ E) as (q'' & E' & S).
          exists q''. split; [auto|]. rewrite S. change (solid ([] :: Q)) with (solid Q).
          apply tail_all; [now apply drop_tail in E|]. now rewrite (drop_content _ _ _ E).
        * apply IH.
      + change (solid ((x :: s) :: Q)) with ((x :: s) :: solid Q). cbn [ck_drop].
        destruct (n <=? length (x :: s)); [|apply IH].
        injection 1 as <-. eexists. split; [reflexivity|]. rewrite !solid_cons. f_equal.
        unfold solid. clear. induction Q as [|[|y t] Q IH]; cbn; rewrite ?IH; reflexivity.
  Qed.
  Lemma solid_solid q : solid (solid q) = solid q.
  Proof. unfold solid. induction q as [|[|y t] q IH]; cbn; rewrite ?IH; reflexivity. Qed.
  Lemma drop_solid n Q1 Q2 q : solid Q1 = solid Q2 -> ck_drop n Q1 = Some q ->
    exists q', ck_drop n Q2 = Some q' /\ solid q' = solid q.
  Proof.
    intros S E. destruct (drop_of_solid _ _ _ E) as (q1 & E1 & S1).
    assert (L : n <= length (concat Q2)).
    { rewrite <- concat_solid, <- S, concat_solid. now apply drop_fits in E. }
    destruct (drop_some _ _ L) as (q2 & E2). destruct (drop_of_solid _ _ _ E2) as (q3 & E3 & S3).
    exists q2. split; [auto|]. rewrite <- S in E3. congruence.
  Qed.
End Tails.

Lemma skipn_twice {X} n m (l : list X) : skipn n (skipn m l) = skipn (m + n) l.
Proof. revert l. induction m as [|m IH]; intros [|x l]; cbn; rewrite ?skipn_nil; auto. Qed.

(** ** Where the buffer is after [advance] *)
Section Place.
  Context {T : Type} (modulus : nat).

  Inductive path (h : heap T) : nat -> list (list T) -> nat -> Prop :=
  | path_here n : path h n [] n
  | path_on n s m ss k : nth_error h n = Some (Some (s, m)) -> path h m ss k -> path h n (s :: ss) k.

  Lemma path_snoc h n ss m s k : path h n ss m -> nth_error h m = Some (Some (s, k)) -> path h n (ss ++ [s]) k.
  Proof. induction 1; intros E; [|cbn]; econstructor; eauto. constructor. Qed.
  Lemma path_chain h n ss m ss' tail : path h n ss m -> chain h m ss' tail -> chain h n (ss ++ ss') tail.
  Proof. induction 1; intros C; cbn; auto. econstructor; eauto. Qed.

  Lemma set_kept h tail seg h' tail' n (c : list T * nat) : commit_to h tail seg = Ret (h', tail') ->
    nth_error h n = Some (Some c) -> nth_error h' n = Some (Some c).
  Proof.
    unfold commit_to. destruct (nth_error h tail) as [[?|]|] eqn:E; try discriminate.
    injection 1 as <- <-. intros N. assert (n <> tail) by congruence.
    rewrite nth_error_app1.
    - rewrite set_nth_other by auto. exact N.
    - rewrite set_length. apply nth_error_Some. congruence.
  Qed.
  Lemma path_kept x e (x' : @shared T) n ss m : loader_step modulus x e x' -> path (sh_heap x) n ss m -> path (sh_heap x') n ss m.
  Proof.
    intros L. destruct L; cbn; auto. induction 1; econstructor; eauto. eapply set_kept; eauto.
  Qed.

  (** The node the buffer is at, or will be. *)
  Definition node_of (a : @astate T) : nat :=
    match a_pc a with ALoop ad => ad_node ad | _ => head_node (a_buf a) end.

  Lemma areach_path x b n a : areach modulus x b n a -> a_pc a <> APanicked ->
    exists ss, path (sh_heap (a_sh a)) (head_node b) ss (node_of a).
  Proof.
    induction 1 as [|s s' R IH St]; [exists []; constructor|]. intros NP.
    assert (NP0 : a_pc s <> APanicked) by (destruct St; cbn in *; congruence).
    destruct (IH NP0) as (ss & IH'). clear IH NP0. rename IH' into IH.
    destruct St; unfold node_of in *; cbn [a_sh a_buf a_pc a_remain a_fut a_hist begin_poll register wake_by_ref sh_heap adv_begin ad_node] in *; eauto.
    - exists ss. eapply path_kept; eauto.
    - (* as_turn *) unfold adv_turn, get in H. destruct (nth_error (sh_heap x0) (ad_node a)) as [[(buf & next)|]|] eqn:E; try discriminate.
      unfold usub in H. destruct (ad_offset a <=? length buf); [|discriminate]. cbn [bind] in H.
      destruct (ad_remain a <? length buf - ad_offset a); [discriminate|]. injection H as <-. cbn.
      exists (ss ++ [buf]). eapply path_snoc; eauto.
    - (* as_last *) exists ss. unfold adv_turn, get in H. destruct (nth_error (sh_heap x0) (ad_node a)) as [[(buf & next)|]|] eqn:E.
      + unfold usub in H. destruct (ad_offset a <=? length buf); [|discriminate]. cbn [bind] in H.
        destruct (ad_remain a <? length buf - ad_offset a); [|discriminate]. injection H as <-. exact IH.
      + injection H as <-. exact IH.
      + injection H as <-. exact IH.
    - destruct (NP eq_refl).
  Qed.

  Lemma ahead_tail (x : @shared T) b b' Q q ss : ahead (sh_heap x) (sh_tail x) b Q -> ahead (sh_heap x) (sh_tail x) b' q ->
    path (sh_heap x) (head_node b) ss (head_node b') -> length (concat q) <= length (concat Q) -> tail_of q Q.
  Proof.
    intros (s1 & C1 & A1) (s2 & C2 & A2) P L. pose proof (path_chain _ _ _ _ _ _ P C2) as C.
    destruct (chain_unique _ _ _ _ _ _ C1 C) as (-> & _).
    assert (TL : tail_of q s2).
    { destruct s2 as [|s s2]; [destruct A2 as (_ & ->); constructor|]. destruct A2 as (L2 & ->). now constructor. }
    destruct ss as [|s ss]; cbn in A1.
    - destruct s2 as [|s s2].
      + destruct A1 as (_ & ->), A2 as (_ & ->). constructor.
      + destruct A1 as (L1 & ->), A2 as (L2 & ->). cbn [concat] in L. rewrite !app_length, !skipn_length in L.
        destruct (Nat.le_gt_cases (head_offset b) (head_offset b')) as [G|G].
        * replace (skipn (head_offset b') s) with (skipn (head_offset b' - head_offset b) (skipn (head_offset b) s)).
          -- constructor. rewrite skipn_length. lia.
          -- rewrite skipn_twice. f_equal. lia.
        * exfalso. lia.
    - destruct A1 as (L1 & ->). constructor. clear -TL. induction ss; cbn; [auto|]. now constructor.
  Qed.
End Place.

(** ** One primitive parser *)
Section Prim.
  Context {T O : Type} (modulus : nat) (p : @looker T O).

  Lemma settle_solid ss st q : steady p -> witnessed p ss (inl st) -> settle p st q = settle p st (solid q).
  Proof.
    intros S. revert ss st. induction q as [|[|x s] q IH]; intros ss st W; [reflexivity| |].
    - cbn [settle]. rewrite (S _ _ W). exact (IH _ _ W).
    - change (solid ((x :: s) :: q)) with ((x :: s) :: solid q). cbn [settle].
      destruct (lk_step p st (Some (x :: s))) eqn:E; [|reflexivity].
      apply (IH (ss ++ [x :: s])). rewrite <- E. now constructor.
  Qed.

  Lemma settle_more q add n o : (forall st, lk_step p st None = inr VMiss) ->
    forall st, settle p st q = inr (VTake n o) -> settle p st (q ++ add) = inr (VTake n o).
  Proof.
    intros G. induction q as [|s q IH]; intros st; cbn [settle app].
    - rewrite G. discriminate.
    - destruct (lk_step p st (Some s)); auto.
  Qed.

  Lemma settle_fits q n o : modest p -> settle p (lk_init p) q = inr (VTake n o) -> n <= length (concat q).
  Proof.
    intros (M & G) E.
    assert (X : forall q2 q1 st, witnessed p q1 (inl st) -> settle p st q2 = inr (VTake n o) -> n <= length (concat (q1 ++ q2))).
    { induction q2 as [|s q2 IH]; intros q1 st W E2; cbn [settle] in E2; [rewrite G in E2; discriminate|].
      pose proof (witnessed_next _ _ _ s W) as W'. destruct (lk_step p st (Some s)) as [st'|v].
      - specialize (IH _ _ W' E2). now rewrite <- app_assoc in IH.
      - injection E2 as ->. apply M in W'. replace (q1 ++ s :: q2) with ((q1 ++ [s]) ++ q2) by now rewrite <- app_assoc.
        rewrite concat_app, app_length. lia. }
    apply (X q [] (lk_init p)); [constructor|exact E].
  Qed.

  Variables (x0 : @shared T) (b : gbuffer) (q : list (list T)).
  Hypothesis version_small : version x0 < modulus.
  Hypothesis start : ahead (sh_heap x0) (sh_tail x0) b q.
  Hypothesis polite : modest p.

  Lemma loader_version (x : @shared T) e x' : loader_step modulus x e x' -> version x < modulus -> version x' < modulus.
  Proof. intros L. destruct L; cbn; auto. intros. apply Nat.mod_upper_bound. lia. Qed.
  Lemma aversion (x : @shared T) n a : version x < modulus -> areach modulus x b n a -> version (a_sh a) < modulus.
  Proof.
    intros V. induction 1 as [|s s' R IH St]; [auto|]. destruct St; cbn in *; auto. eapply loader_version; eauto.
  Qed.
  Lemma aahead (x : @shared T) n a qx : ahead (sh_heap x) (sh_tail x) b qx -> areach modulus x b n a ->
    ahead (sh_heap (a_sh a)) (sh_tail (a_sh a)) b (qx ++ appended (a_hist a)).
  Proof.
    intros A. induction 1 as [|s s' R IH St].
    - cbn. now rewrite start_appended, app_nil_r.
    - destruct St; cbn in *; auto. pose proof (ahead_more modulus x0 b version_small _ _ _ _ H IH) as B.
      rewrite <- app_assoc in B. replace (appended h ++ appended (note e [])) with (appended (note e h)) in B; [exact B|].
      destruct H; cbn; now rewrite ?app_nil_r.
  Qed.

  Variable parser : pfun (chunked T) O (Miss unit).
  Hypothesis same : same_parser p parser.

  Lemma prim_took h o x b' : prim_runs modulus p x0 b h (Took o x b') ->
    version x < modulus /\ exists s', parser (Chunked (q ++ appended h)) = Ret (Ok o (Chunked s')) /\ same_ahead x b' s'.
  Proof.
    intros R. inversion R as [h1 o1 a L P E1 E2|]; subst. destruct polite as (M & G).
    destruct (C79_taken p modulus x0 b q version_small start polite h1 o a L P) as (n & W & (c & I) & q' & A' & C').
    destruct (live_reach modulus p x0 b _ G L) as (s & n' & S & <- & AR & _).
    pose proof (version_now modulus x0 b q version_small start s S) as V.
    split; [eapply aversion; eauto|].
    rewrite appended_app. set (add := appended (s_hist s) ++ appended (a_hist a)) in *.
    assert (SE : settle p (lk_init p) (q ++ add) = inr (VTake n o)).
    { unfold add. rewrite app_assoc, <- I, <- app_assoc. now rewrite (witnessed_settle p _ _ W). }
    pose proof (settle_fits _ _ _ polite SE) as F. destruct (drop_some _ _ F) as (s' & D).
    exists s'. split.
    - rewrite (same (q ++ add)), SE. cbn [advance chunked_sequence ck_segs bind]. now rewrite D.
    - exists q'. split; [auto|].
      pose proof (ahead_now modulus x0 b q version_small start s S) as N.
      pose proof (aahead _ _ _ _ N AR) as NA. rewrite <- app_assoc in NA. fold add in NA.
      assert (NP : a_pc a <> APanicked) by congruence.
      destruct (areach_path modulus _ _ _ _ AR NP) as (ss & PA). unfold node_of in PA. rewrite P in PA.
      pose proof (drop_content _ _ _ D) as DC.
      apply tail_same with (Q := q ++ add).
      + apply (ahead_tail (a_sh a) b (a_buf a) (q ++ add) q' ss); auto.
        rewrite C'. rewrite skipn_length. lia.
      + eapply drop_tail; eauto.
      + now rewrite C', DC.
  Qed.

  Lemma prim_failed h e x b' : prim_runs modulus p x0 b h (Failed e x b') ->
    version x < modulus /\ exists add1 add2 s', appended h = add1 ++ add2 /\
      parser (Chunked (q ++ add1)) = Ret (Err e (Chunked s')) /\ same_ahead x b' (s' ++ add2).
  Proof.
    intros R. inversion R as [|b1 s L E1 E2]; subst. destruct polite as (M & G).
    destruct (C79_missed_partial p modulus x0 b q version_small start polite b' s L) as (-> & _ & (c & I) & C).
    destruct (C79_waits p modulus x0 b q version_small start polite _ L) as (_ & S).
    split; [exact (version_now modulus x0 b q version_small start s S)|].
    pose proof (ahead_now modulus x0 b q version_small start s S) as N.
    destruct C as [W|(st & h1 & h2 & W & E & D & F & _)].
    - exists (appended (s_hist s)), [], (q ++ appended (s_hist s)). rewrite !app_nil_r. split; [auto|]. split.
      + rewrite same, <- I, (witnessed_settle p _ _ W). reflexivity.
      + eexists. split; eauto.
    - destruct (before_look_split h2) as (h3 & E3).
      assert (PA : exists add2, appended (s_hist s) = appended (before_look h2) ++ add2).
      { rewrite E, appended_app. cbn [appended]. rewrite (f_equal appended E3), appended_app, <- app_assoc. eauto. }
      destruct PA as (add2 & PA). exists (appended (before_look h2)), add2, (q ++ appended (before_look h2)).
      split; [auto|]. split.
      + rewrite same, <- F. pose proof (witnessed_settle p _ _ W []) as SE. rewrite app_nil_r in SE. rewrite SE. cbn [settle]. now rewrite G.
      + eexists. split; [exact N|]. now rewrite PA, app_assoc.
  Qed.
End Prim.

(** ** The three parsers *)
Section Three.
  Context {T : Type} (eqb : T -> T -> bool).
  Hypothesis eq_ok : decides_eq eqb.

  Lemma any_steady : steady (@any_looker T).
  Proof. intros ss [] _. reflexivity. Qed.
  Lemma the_steady x : steady (the_looker eqb x).
  Proof. intros ss [] _. reflexivity. Qed.
  Lemma atom_steady pat : pat <> [] -> steady (atom_looker eqb pat).
  Proof.
    intros NE ss remain W. destruct (atom_witnessed eqb eq_ok pat ss _ W) as (P & L).
    assert (remain <> []) as NR.
    { destruct ss as [|s ss] using rev_ind; [cbn in P; congruence|]. intros ->.
      specialize (L ss [] s eq_refl). rewrite P, app_nil_r, concat_app, app_length in L. cbn in L. rewrite app_nil_r in L. lia. }
    destruct remain as [|y r]; [congruence|]. reflexivity.
  Qed.
End Three.

(** ** Parsers built from them, on segments that are all there *)
Section Built.
  Context {T : Type} (eqb : T -> T -> bool).
  Hypothesis eq_ok : decides_eq eqb.

  Definition on {O E} (p : lparser T O E) (q : list (list T)) : comp (res (chunked T) O E) :=
    parse (built eqb p) (Chunked q).

  (** What is shown of every parser. *)
  Definition extends {O E} (f : list (list T) -> comp (res (chunked T) O E)) : Prop :=
    (forall q add o s, f q = Ret (Ok o (Chunked s)) -> f (q ++ add) = Ret (Ok o (Chunked (s ++ add)))) /\
    (forall q1 q2 o s1, solid q1 = solid q2 -> f q1 = Ret (Ok o (Chunked s1)) ->
       exists s2, f q2 = Ret (Ok o (Chunked s2)) /\ solid s2 = solid s1) /\
    (forall q1 q2 e s1, solid q1 = solid q2 -> f q1 = Ret (Err e (Chunked s1)) ->
       exists s2, f q2 = Ret (Err e (Chunked s2)) /\ solid s2 = solid s1).

  Lemma look_same {O} (p : @looker T O) : same_parser p (look_parse p).
  Proof. intros q. reflexivity. Qed.

  Lemma prim_extends {O} (p : @looker T O) parser : same_parser p parser -> modest p -> steady p ->
    extends (fun q => parser (Chunked q)).
  Proof.
    intros same (M & G) ST.
    assert (SS : forall q1 q2, solid q1 = solid q2 -> settle p (lk_init p) q1 = settle p (lk_init p) q2).
    { intros q1 q2 E. rewrite (settle_solid p [] _ q1 ST (witnessed_none p)), (settle_solid p [] _ q2 ST (witnessed_none p)).
      now rewrite E. }
    assert (OK : forall q o s, parser (Chunked q) = Ret (Ok o (Chunked s)) ->
      exists n, settle p (lk_init p) q = inr (VTake n o) /\ ck_drop n q = Some s).
    { intros q o s. rewrite same. destruct (settle p (lk_init p) q) as [|[n o'|]]; try discriminate.
      cbn [advance chunked_sequence ck_segs]. destruct (ck_drop n q) eqn:D; [|discriminate]. cbn. intros E.
      injection E as -> ->. eauto. }
    split; [|split].
    - intros q add o s E. destruct (OK _ _ _ E) as (n & S & D). rewrite same, (settle_more p q add n o G _ S).
      cbn [advance chunked_sequence ck_segs]. now rewrite (drop_more _ _ _ add D).
    - intros q1 q2 o s1 E F. destruct (OK _ _ _ F) as (n & S & D). destruct (drop_solid _ _ _ _ E D) as (s2 & D2 & E2).
      exists s2. rewrite same, <- (SS _ _ E), S. cbn [advance chunked_sequence ck_segs]. now rewrite D2.
    - intros q1 q2 e s1 E F. exists q2. rewrite same in F |- *. rewrite <- (SS _ _ E).
      destruct (settle p (lk_init p) q1) as [|[n o'|]].
      + injection F as <- <-. auto.
      + exfalso. cbn [advance chunked_sequence ck_segs] in F. destruct (ck_drop n q1); discriminate.
      + injection F as <- <-. auto.
  Qed.

  Lemma chunked_eta (c : chunked T) : c = Chunked (ck_segs c).
  Proof. now destruct c. Qed.

  Lemma built_extends {O E} (p : lparser T O E) : well_made p -> extends (on p).
  Proof.
    unfold on. induction p as [|x|pat|O l|O0 E0 O1 E1 p0 IH0 p1 IH1|O E U p IH f|O E U p IH f|O E O' E' from p IH f|T0 T1 U E i0 i1 p IH|O T0 T1 U i0 i1 p IH|O E p IH|O E p IH|O E o0|O E e0|O E O' E' from p IH c IHc]; intros NE.
    - exact (prim_extends _ _ any_same any_modest any_steady).
    - exact (prim_extends _ _ (the_same eqb x) (the_modest eqb eq_ok x) (the_steady eqb x)).
    - exact (prim_extends _ _ (atom_same eqb 1 (fresh [] 0) (le_n 1) pat) (atom_modest eqb eq_ok pat) (atom_steady eqb eq_ok pat NE)).
    - destruct NE as (M & ST). exact (prim_extends l _ (look_same l) M ST).
    - destruct NE as (N0 & N1). destruct (IH0 N0) as (A0 & B0 & C0), (IH1 N1) as (A1 & B1 & C1).
      cbn [built parse Join]. unfold join_parse. split; [|split].
      + intros q add o s F. destruct (parse (built eqb p0) (Chunked q)) as [[o0 [s0]|e0 s0]| | |] eqn:E; try discriminate.
        cbn [bind] in F. rewrite (A0 _ add _ _ E). cbn [bind].
        destruct (parse (built eqb p1) (Chunked s0)) as [[o1 [s1]|e1 s1]| | |] eqn:E'; try discriminate.
        injection F as <- <-. now rewrite (A1 _ add _ _ E').
      + intros q1 q2 o s1 Q F. destruct (parse (built eqb p0) (Chunked q1)) as [[o0 [s0]|e0 s0]| | |] eqn:E; try discriminate.
        cbn [bind] in F. destruct (B0 _ _ _ _ Q E) as (s0' & -> & Q0). cbn [bind].
        destruct (parse (built eqb p1) (Chunked s0)) as [[o1 [s2]|e1 s2]| | |] eqn:E'; try discriminate.
        injection F as <- <-. destruct (B1 _ _ _ _ (eq_sym Q0) E') as (s2' & -> & Q2). exists s2'. auto.
      + intros q1 q2 e s1 Q F. destruct (parse (built eqb p0) (Chunked q1)) as [[o0 [s0]|e0 [s0]]| | |] eqn:E; try discriminate.
        * cbn [bind] in F. destruct (B0 _ _ _ _ Q E) as (s0' & -> & Q0). cbn [bind].
          destruct (parse (built eqb p1) (Chunked s0)) as [[o1 [s2]|e1 [s2]]| | |] eqn:E'; try discriminate.
          injection F as <- <-. destruct (C1 _ _ _ _ (eq_sym Q0) E') as (s2' & -> & Q2). exists s2'. auto.
        * injection F as <- <-. destruct (C0 _ _ _ _ Q E) as (s0' & -> & Q0). exists s0'. auto.
    - destruct (IH NE) as (A & B & C). cbn [built parse Map]. unfold map_parse. split; [|split].
      + intros q add o s F. destruct (parse (built eqb p) (Chunked q)) as [[o0 [s0]|e0 s0]| | |] eqn:D; try discriminate.
        injection F as <- <-. now rewrite (A _ add _ _ D).
      + intros q1 q2 o s1 Q F. destruct (parse (built eqb p) (Chunked q1)) as [[o0 [s0]|e0 s0]| | |] eqn:D; try discriminate.
        injection F as <- <-. destruct (B _ _ _ _ Q D) as (s0' & -> & Q0). exists s0'. auto.
      + intros q1 q2 e s1 Q F. destruct (parse (built eqb p) (Chunked q1)) as [[o0 [s0]|e0 [s0]]| | |] eqn:D; try discriminate.
        injection F as <- <-. destruct (C _ _ _ _ Q D) as (s0' & -> & Q0). exists s0'. auto.
    - destruct (IH NE) as (A & B & C). cbn [built parse MapErr]. unfold map_err_parse. split; [|split].
      + intros q add o s F. destruct (parse (built eqb p) (Chunked q)) as [[o0 [s0]|e0 s0]| | |] eqn:D; try discriminate.
        injection F as <- <-. now rewrite (A _ add _ _ D).
      + intros q1 q2 o s1 Q F. destruct (parse (built eqb p) (Chunked q1)) as [[o0 [s0]|e0 s0]| | |] eqn:D; try discriminate.
        injection F as <- <-. destruct (B _ _ _ _ Q D) as (s0' & -> & Q0). exists s0'. auto.
      + intros q1 q2 e s1 Q F. destruct (parse (built eqb p) (Chunked q1)) as [[o0 [s0]|e0 [s0]]| | |] eqn:D; try discriminate.
        injection F as <- <-. destruct (C _ _ _ _ Q D) as (s0' & -> & Q0). exists s0'. auto.
    - destruct (IH NE) as (A & B & C). cbn [built parse AndThen]. unfold and_then_parse. split; [|split].
      + intros q add o s F. destruct (parse (built eqb p) (Chunked q)) as [[o0 [s0]|e0 s0]| | |] eqn:D; try discriminate.
        rewrite (A _ add _ _ D). cbn [bind] in *. destruct (f o0); [|discriminate]. injection F as <- <-. reflexivity.
      + intros q1 q2 o s1 Q F. destruct (parse (built eqb p) (Chunked q1)) as [[o0 [s0]|e0 s0]| | |] eqn:D; try discriminate.
        cbn [bind] in F. destruct (B _ _ _ _ Q D) as (s0' & -> & Q0). cbn [bind]. destruct (f o0); [|discriminate].
        injection F as <- <-. exists s0'. auto.
      + intros q1 q2 e s1 Q F. destruct (parse (built eqb p) (Chunked q1)) as [[o0 [s0]|e0 [s0]]| | |] eqn:D; try discriminate.
        * cbn [bind] in F. destruct (B _ _ _ _ Q D) as (s0' & -> & Q0). cbn [bind]. destruct (f o0); [discriminate|].
          injection F as <- <-. exists s0'. auto.
        * injection F as <- <-. destruct (C _ _ _ _ Q D) as (s0' & -> & Q0). exists s0'. auto.
    - destruct (IH NE) as (A & B & C). cbn [built parse Unify]. unfold unify_parse. split; [|split].
      + intros q add o s F. destruct (parse (built eqb p) (Chunked q)) as [[o0 [s0]|e0 s0]| | |] eqn:D; try discriminate.
        injection F as <- <-. now rewrite (A _ add _ _ D).
      + intros q1 q2 o s1 Q F. destruct (parse (built eqb p) (Chunked q1)) as [[o0 [s0]|e0 s0]| | |] eqn:D; try discriminate.
        injection F as <- <-. destruct (B _ _ _ _ Q D) as (s0' & -> & Q0). exists s0'. auto.
      + intros q1 q2 e s1 Q F. destruct (parse (built eqb p) (Chunked q1)) as [[o0 [s0]|e0 [s0]]| | |] eqn:D; try discriminate.
        injection F as <- <-. destruct (C _ _ _ _ Q D) as (s0' & -> & Q0). exists s0'. auto.
    - destruct (IH NE) as (A & B & C). cbn [built parse UnifyErr]. unfold unify_err_parse. split; [|split].
      + intros q add o s F. destruct (parse (built eqb p) (Chunked q)) as [[o0 [s0]|e0 s0]| | |] eqn:D; try discriminate.
        injection F as <- <-. now rewrite (A _ add _ _ D).
      + intros q1 q2 o s1 Q F. destruct (parse (built eqb p) (Chunked q1)) as [[o0 [s0]|e0 s0]| | |] eqn:D; try discriminate.
        injection F as <- <-. destruct (B _ _ _ _ Q D) as (s0' & -> & Q0). exists s0'. auto.
      + intros q1 q2 e s1 Q F. destruct (parse (built eqb p) (Chunked q1)) as [[o0 [s0]|e0 [s0]]| | |] eqn:D; try discriminate.
        injection F as <- <-. destruct (C _ _ _ _ Q D) as (s0' & -> & Q0). exists s0'. auto.
    - exact (IH NE).
    - exact (IH NE).
    - cbn [built parse closure]. unfold done. split; [|split].
      + intros q add o s F. now injection F as <- <-.
      + intros q1 q2 o s1 Q F. injection F as <- <-. exists q2. auto.
      + intros q1 q2 e s1 Q F. discriminate.
    - cbn [built parse closure]. unfold fail. split; [|split].
      + intros q add o s F. discriminate.
      + intros q1 q2 o s1 Q F. discriminate.
      + intros q1 q2 e s1 Q F. injection F as <- <-. exists q2. auto.
    - destruct NE as (N0 & N1). destruct (IH N0) as (A0 & B0 & C0). cbn [built parse closure]. split; [|split].
      + intros q add o s F. destruct (parse (built eqb p) (Chunked q)) as [[o0 [s0]|e0 s0]| | |] eqn:D; try discriminate.
        cbn [bind] in F. rewrite (A0 _ add _ _ D). cbn [bind]. now apply (IHc o0 (N1 o0)).
      + intros q1 q2 o s1 Q F. destruct (parse (built eqb p) (Chunked q1)) as [[o0 [s0]|e0 s0]| | |] eqn:D; try discriminate.
        cbn [bind] in F. destruct (B0 _ _ _ _ Q D) as (s0' & -> & Q0). cbn [bind].
        destruct (IHc o0 (N1 o0)) as (_ & B1 & _). exact (B1 _ _ _ _ (eq_sym Q0) F).
      + intros q1 q2 e s1 Q F. destruct (parse (built eqb p) (Chunked q1)) as [[o0 [s0]|e0 [s0]]| | |] eqn:D; try discriminate.
        * cbn [bind] in F. destruct (B0 _ _ _ _ Q D) as (s0' & -> & Q0). cbn [bind].
          destruct (IHc o0 (N1 o0)) as (_ & _ & C1). exact (C1 _ _ _ _ (eq_sym Q0) F).
        * cbn [bind] in F. injection F as <- <-. destruct (C0 _ _ _ _ Q D) as (s0' & -> & Q0). exists s0'. auto.
  Qed.
End Built.
