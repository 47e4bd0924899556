(** * L_GenArc: the counts of the chain are the references there are. *)
From Coq Require Import Lia.
From Verif Require Import L_GenSeq.
From Verif Require Export M_GenArc S_GenArc.

Local Arguments Nat.ltb : simpl never.
Local Arguments Nat.leb : simpl never.
Local Arguments Nat.eqb : simpl never.

Fixpoint cnt (i : nat) (rs : list nat) : nat :=
  match rs with [] => 0 | r :: rs' => (if r =? i then 1 else 0) + cnt i rs' end.

Lemma cnt_in i rs : In i rs <-> 0 < cnt i rs.
Proof.
  induction rs as [|r rs IH]; cbn; [split; [tauto|lia]|]. destruct (Nat.eqb_spec r i) as [->|N]; rewrite IH.
  - split; [lia|auto].
  - split; [intros [H|H]; [congruence|lia]|right; lia].
Qed.
Lemma cnt_app i a b : cnt i (a ++ b) = cnt i a + cnt i b.
Proof. induction a; cbn; lia. Qed.

Section Counts.
  Context {T : Type}.
  Implicit Types (h : arcs T) (segs : list (list T)) (rs : list nat).

  Definition content segs i : option (list T * nat) :=
    match nth_error segs i with Some x => Some (x, S i) | None => None end.

  (** References to [i]: of the node before it, and of [rs]. *)
  Definition refs lo segs rs i : nat :=
    (if lo <? i then if i <=? length segs then 1 else 0 else 0) + cnt i rs.

  Record counted h lo segs rs : Prop := {
    c_cells : forall i, i < length h -> nth_error h i = Some (if i <? lo then None else Some (Cell (refs lo segs rs i) (content segs i)));
    c_lo : lo <= length h;
    c_in : forall i, 0 < cnt i rs -> lo <= i < length h;
    c_first : lo < length h -> 0 < cnt lo rs;
    c_segs : length segs < length h }.

  Lemma counted_ext h lo segs rs rs' : (forall i, cnt i rs = cnt i rs') -> counted h lo segs rs -> counted h lo segs rs'.
  Proof.
    intros X [A B C D F]. split; auto.
    - intros i Hi. rewrite (A i Hi). destruct (i <? lo); auto. unfold refs. now rewrite X.
    - intros i. rewrite <- X. apply C.
    - intros L. rewrite <- X. auto.
  Qed.

  Lemma counted_deref h lo segs rs i : counted h lo segs rs -> lo <= i < length h ->
    deref h i = Ret (Cell (refs lo segs rs i) (content segs i)).
  Proof.
    intros [A _ _ _ _] L. unfold deref. rewrite (A i) by lia. now rewrite (proj2 (Nat.ltb_ge _ _)) by lia.
  Qed.

  Lemma counted_clone h lo segs rs i : counted h lo segs rs -> lo <= i < length h ->
    exists h', arc_clone h i = Ret h' /\ counted h' lo segs (i :: rs) /\ length h' = length h.
  Proof.
    intros I L. unfold arc_clone. rewrite (counted_deref _ _ _ _ _ I L). cbn [bind strong lock].
    eexists. split; [reflexivity|]. split; [|apply set_length]. destruct I as [A B C D F]. split.
    - intros j. rewrite set_length. intros Hj. destruct (Nat.eq_dec i j) as [<-|N].
      + rewrite set_nth_same by auto. rewrite (proj2 (Nat.ltb_ge _ _)) by lia. do 3 f_equal. unfold refs. cbn. rewrite Nat.eqb_refl. lia.
      + rewrite set_nth_other by auto. rewrite (A j) by auto. destruct (j <? lo); auto. unfold refs. cbn. now rewrite (proj2 (Nat.eqb_neq _ _)) by auto.
    - now rewrite set_length.
    - intros j. rewrite set_length. cbn. destruct (Nat.eqb_spec i j); [subst; lia|]. apply C.
    - rewrite set_length. intros Q. cbn. specialize (D Q). lia.
    - now rewrite set_length.
  Qed.

  Lemma counted_new h lo segs rs : counted h lo segs rs ->
    counted (fst (arc_new h)) lo segs (length h :: rs) /\ snd (arc_new h) = length h /\ length (fst (arc_new h)) = S (length h).
  Proof.
    intros [A B C D F]. unfold arc_new. cbn [fst snd]. split; [|split; [auto|rewrite app_length; cbn; lia]]. split.
    - intros j. rewrite app_length. cbn [length]. intros Hj. destruct (Nat.eq_dec j (length h)) as [->|N].
      + rewrite nth_error_app2, Nat.sub_diag by lia. cbn. rewrite (proj2 (Nat.ltb_ge _ _)) by lia. do 2 f_equal.
        unfold refs, content. cbn. rewrite Nat.eqb_refl, (proj2 (Nat.leb_gt (length h) _)) by lia.
        assert (nth_error segs (length h) = None) as -> by (apply nth_error_None; lia).
        assert (cnt (length h) rs = 0) as -> by (destruct (cnt (length h) rs) eqn:Q; auto; specialize (C (length h)); lia).
        destruct (lo <? length h); reflexivity.
      + rewrite nth_error_app1 by lia. rewrite (A j) by lia. destruct (j <? lo); auto. unfold refs. cbn.
        now rewrite (proj2 (Nat.eqb_neq _ _)) by lia.
    - rewrite app_length. lia.
    - intros j. rewrite app_length. cbn. destruct (Nat.eqb_spec (length h) j); [lia|]. intros H. specialize (C j). lia.
    - rewrite app_length. cbn. intros _. destruct (Nat.eqb_spec (length h) lo); [lia|]. apply D. lia.
    - rewrite app_length. lia.
  Qed.

  (** Setting the lock of the tail moves one reference into the node. *)
  Lemma counted_set h lo segs rs xs : counted h lo segs (S (length segs) :: rs) -> lo <= length segs ->
    S (length segs) < length h ->
    exists h', lock_set h (length segs) (xs, S (length segs)) = Ret h' /\ counted h' lo (segs ++ [xs]) rs /\ length h' = length h.
  Proof.
    intros I L K. unfold lock_set. rewrite (counted_deref _ _ _ _ (length segs) I) by lia. cbn [bind strong lock].
    unfold content at 1. assert (nth_error segs (length segs) = None) as -> by (apply nth_error_None; lia).
    eexists. split; [reflexivity|]. split; [|apply set_length]. destruct I as [A B C D F]. split.
    - intros j. rewrite set_length. intros Hj. destruct (Nat.eq_dec (length segs) j) as [<-|N].
      + rewrite set_nth_same by auto. rewrite (proj2 (Nat.ltb_ge _ _)) by lia. do 2 f_equal. f_equal.
        * unfold refs. cbn. rewrite app_length, (proj2 (Nat.eqb_neq _ _)), Nat.leb_refl, (proj2 (Nat.leb_le _ _)) by (cbn; lia). reflexivity.
        * unfold content. rewrite nth_error_app2, Nat.sub_diag by lia. reflexivity.
      + rewrite set_nth_other by auto. rewrite (A j) by auto. destruct (Nat.ltb_spec j lo); auto. do 2 f_equal. f_equal.
        * unfold refs. cbn. rewrite app_length. cbn [length].
          destruct (Nat.ltb_spec lo j), (Nat.leb_spec j (length segs)), (Nat.leb_spec j (length segs + 1)), (Nat.eqb_spec (S (length segs)) j); try lia.
        * unfold content. destruct (Nat.lt_ge_cases j (length segs)).
          -- now rewrite nth_error_app1.
          -- rewrite nth_error_app2 by lia. assert (nth_error segs j = None) as -> by (apply nth_error_None; lia).
             assert (nth_error [xs] (j - length segs) = None) as -> by (apply nth_error_None; cbn; lia). reflexivity.
    - now rewrite set_length.
    - intros j. rewrite set_length. intros H. apply C. cbn. lia.
    - rewrite set_length. intros Q. specialize (D Q). cbn in D. destruct (Nat.eqb_spec (S (length segs)) lo); lia.
    - rewrite set_length, app_length. cbn. lia.
  Qed.

  (** Dropping a reference: others are left, or it is the first node, which goes. *)
  Lemma counted_drop h lo segs rs p d : counted h lo segs (p :: rs) -> p <= length segs ->
    p < length segs \/ 0 < cnt p rs \/ length h = S p ->
    exists h' q xs lo', arc_drop h p d = Ret (h', q, xs) /\ length h' = length h /\
      (q = None /\ xs = [] /\ lo' = lo /\ counted h' lo segs rs /\ (0 < cnt p rs \/ lo < p)
       \/ q = None /\ xs = [] /\ p = lo /\ p = length segs /\ lo' = S lo /\ cnt p rs = 0 /\ counted h' (S lo) segs rs
       \/ q = Some (S p, S d) /\ p = lo /\ p < length segs /\ nth_error segs p = Some xs /\ lo' = S lo /\ cnt p rs = 0
          /\ counted h' (S lo) segs (S p :: rs)).
  Proof.
    intros I L K. assert (LP : lo <= p < length h) by (apply (c_in _ _ _ _ I); cbn; rewrite Nat.eqb_refl; lia).
    unfold arc_drop. rewrite (counted_deref _ _ _ _ p I LP). cbn [bind strong lock].
    assert (R : refs lo segs (p :: rs) p = S ((if lo <? p then 1 else 0) + cnt p rs)).
    { unfold refs. cbn. rewrite Nat.eqb_refl, (proj2 (Nat.leb_le p _)) by auto. destruct (lo <? p); lia. }
    rewrite R. destruct I as [A B C D F]. destruct ((if lo <? p then 1 else 0) + cnt p rs) as [|m] eqn:M.
    - assert (p = lo /\ cnt p rs = 0) as (-> & Z) by (destruct (Nat.ltb_spec lo p); lia).
      assert (REST : forall i, 0 < cnt i rs -> S lo <= i < length h).
      { intros i Hi. assert (i <> lo) by (intros ->; lia). specialize (C i). cbn in C. rewrite (proj2 (Nat.eqb_neq lo i)) in C by auto. lia. }
      assert (OTHER : forall j, j < length h -> S lo <= j -> S lo <= length segs \/ j <> S lo ->
        nth_error (list_set h lo None) j = Some (Some (Cell (refs (S lo) segs (if S lo <=? length segs then S lo :: rs else rs) j) (content segs j)))).
      { intros j Hj Lj _. rewrite set_nth_other by lia. rewrite (A j) by auto. rewrite (proj2 (Nat.ltb_ge _ _)) by lia. do 3 f_equal.
        unfold refs. rewrite (proj2 (Nat.ltb_lt lo j)) by lia.
        destruct (Nat.leb_spec (S lo) (length segs)), (Nat.ltb_spec (S lo) j), (Nat.leb_spec j (length segs)); cbn;
          rewrite ?(proj2 (Nat.eqb_neq lo j)) by lia; try (destruct (Nat.eqb_spec (S lo) j)); try lia. }
      assert (SAME : nth_error (list_set h lo None) lo = Some None) by (apply set_nth_same; lia).
      assert (LESS : forall j, j < lo -> nth_error (list_set h lo None) j = Some None).
      { intros j Hj. rewrite set_nth_other by lia. rewrite (A j) by lia. now rewrite (proj2 (Nat.ltb_lt _ _)). }
      unfold content at 1. destruct (nth_error segs lo) as [xs|] eqn:N.
      + assert (LS : lo < length segs) by (apply nth_error_Some; congruence).
        exists (list_set h lo None), (Some (S lo, S d)), xs, (S lo). split; [reflexivity|]. split; [apply set_length|]. right. right.
        split; [auto|]. split; [auto|]. split; [auto|]. split; [auto|]. split; [auto|]. split; [auto|].
        rewrite (proj2 (Nat.leb_le (S lo) (length segs))) in OTHER by lia. split.
        * intros j. rewrite set_length. intros Hj. destruct (Nat.ltb_spec j (S lo)).
          -- destruct (Nat.eq_dec j lo) as [->|]; [exact SAME|]. apply LESS. lia.
          -- apply OTHER; lia.
        * rewrite set_length. lia.
        * intros j. rewrite set_length. cbn [cnt]. destruct (Nat.eqb_spec (S lo) j); [lia|]. intros H. specialize (REST j). lia.
        * cbn [cnt]. rewrite Nat.eqb_refl. lia.
        * now rewrite set_length.
      + assert (LS : length segs <= lo) by (now apply nth_error_None).
        assert (K' : length h = S lo) by lia.
        exists (list_set h lo None), None, [], (S lo). split; [reflexivity|]. split; [apply set_length|]. right. left.
        split; [auto|]. split; [auto|]. split; [auto|]. split; [lia|]. split; [auto|]. split; [auto|]. split.
        * intros j. rewrite set_length. intros Hj. rewrite (proj2 (Nat.ltb_lt j (S lo))) by lia.
          destruct (Nat.eq_dec j lo) as [->|]; [exact SAME|]. apply LESS. lia.
        * rewrite set_length. lia.
        * intros j. rewrite set_length. apply REST.
        * rewrite set_length. lia.
        * now rewrite set_length.
    - exists (list_set h p (Some (Cell (S m) (content segs p)))), None, [], lo. split; [reflexivity|]. split; [apply set_length|]. left.
      split; [auto|]. split; [auto|]. split; [auto|]. split.
      + split.
        * intros j. rewrite set_length. intros Hj. destruct (Nat.eq_dec p j) as [<-|NE].
          -- rewrite set_nth_same by lia. rewrite (proj2 (Nat.ltb_ge _ _)) by lia. do 3 f_equal. unfold refs.
             rewrite (proj2 (Nat.leb_le p _)) by auto. lia.
          -- rewrite set_nth_other by auto. rewrite (A j) by auto. destruct (j <? lo); auto. unfold refs. cbn.
             now rewrite (proj2 (Nat.eqb_neq p j)) by auto.
        * now rewrite set_length.
        * intros j. rewrite set_length. intros H. apply C. cbn. lia.
        * rewrite set_length. intros Q. specialize (D Q). cbn in D. destruct (Nat.eqb_spec p lo); [|lia]. subst. rewrite Nat.ltb_irrefl in M. lia.
        * now rewrite set_length.
      + destruct (Nat.ltb_spec lo p); lia.
  Qed.

  (** What the view shows. *)
  Lemma counted_view h lo segs rs i : counted h lo segs rs -> lo <= i < length h -> get (view h) i = content segs i.
  Proof.
    intros [A _ _ _ _] L. unfold get, view. rewrite nth_error_map, (A i) by lia. cbn.
    now rewrite (proj2 (Nat.ltb_ge _ _)) by lia.
  Qed.
End Counts.

(** ** The invariant of the two threads *)
Section Inv.
  Context {T : Type}.
  Implicit Types (s : astate T).

  Definition opt_refs (p : option (nat * nat)) : list nat := match p with Some (p, _) => [p] | None => [] end.
  Definition brefs (b : bstate) : list nat :=
    match b with
    | BIdle b | BWalk b _ => [head_node b]
    | BCloned b a => [head_node b; ad_node a]
    | BDrop b p _ => [head_node b; p]
    | BGone p => opt_refs p
    end.
  Definition lrefs (l : lstate T) : list nat :=
    match l with
    | LIdle t => [t]
    | LNew t n _ => [t; n]
    | LCloned t n _ => [t; n; n]
    | LSet t n => [t; n]
    | LDrop t p _ => [t; p]
    | LGone p => opt_refs p
    end.

  (** An offset lies in its node. *)
  Definition off_ok (segs : list (list T)) (off node : nat) : Prop :=
    off = 0 \/ exists xs, nth_error segs node = Some xs /\ off <= length xs.

  Definition b_ok (segs : list (list T)) (b : bstate) : Prop :=
    match b with
    | BIdle b => off_ok segs (head_offset b) (head_node b) /\ head_node b <= length segs
    | BWalk b a | BCloned b a => off_ok segs (head_offset b) (head_node b) /\ off_ok segs (ad_offset a) (ad_node a)
        /\ head_node b <= ad_node a <= length segs
    | BDrop b p d => off_ok segs (head_offset b) (head_node b) /\ p <= head_node b <= length segs /\ d <= p
    | BGone (Some (p, d)) => p <= length segs /\ d <= p
    | BGone None => True
    end.
  Definition l_ok (k : nat) (segs : list (list T)) (l : lstate T) : Prop :=
    match l with
    | LIdle t => t = length segs /\ k = S t
    | LNew t n _ | LCloned t n _ => t = length segs /\ n = S t /\ k = S n
    | LSet t n => n = length segs /\ n = S t /\ k = S n
    | LDrop t p d => t = length segs /\ k = S t /\ (S p = t /\ d = 0 \/ p = t /\ d = 1)
    | LGone (Some (p, d)) => p = length segs /\ k = S p /\ d = 0
    | LGone None => k = S (length segs)
    end.

  Definition inv_at lo s : Prop :=
    counted (a_arcs s) lo (made s) (brefs (a_buf s) ++ lrefs (a_load s))
    /\ b_ok (made s) (a_buf s) /\ l_ok (length (a_arcs s)) (made s) (a_load s)
    /\ lost s = concat (firstn lo (made s)).

  Lemma off_ok_more segs xs o n : off_ok segs o n -> off_ok (segs ++ [xs]) o n.
  Proof.
    intros [H|(ys & N & L)]; [now left|right]. exists ys. split; [|auto]. rewrite nth_error_app1; [auto|]. apply nth_error_Some. congruence.
  Qed.
  Lemma b_ok_more segs xs b : b_ok segs b -> b_ok (segs ++ [xs]) b.
  Proof.
    assert (L : length (segs ++ [xs]) = S (length segs)) by (rewrite app_length; cbn; lia).
    destruct b as [b|b a|b a|b p d|[(p, d)|]]; cbn; rewrite ?L; intuition (auto using off_ok_more; try lia).
  Qed.

  Lemma firstn_snoc_le {X} n (l : list X) x : n <= length l -> firstn n (l ++ [x]) = firstn n l.
  Proof. intros H. rewrite firstn_app. replace (n - length l) with 0 by lia. cbn. apply app_nil_r. Qed.

  Lemma concat_firstn_S lo (segs : list (list T)) xs : nth_error segs lo = Some xs ->
    concat (firstn (S lo) segs) = concat (firstn lo segs) ++ xs.
  Proof.
    revert lo. induction segs as [|y segs IH]; intros [|lo] N; try discriminate; cbn in *.
    - injection N as ->. apply app_nil_r.
    - rewrite (IH lo N). apply app_assoc.
  Qed.
  Lemma firstn_over {X} lo (l : list X) : length l <= lo -> firstn (S lo) l = firstn lo l.
  Proof. intros H. rewrite !firstn_all2 by lia. reflexivity. Qed.

  Lemma inv_start : inv_at 0 (a_start T).
  Proof.
    unfold inv_at, a_start. cbn. split; [|split; [|split; [|auto]]].
    - split; cbn; try lia.
      + intros [|i] Hi; [reflexivity|lia].
      + intros i. destruct (Nat.eqb_spec 0 i); lia.
      + rewrite Nat.eqb_refl. lia.
    - split; [now left|lia].
    - auto.
  Qed.

  Ltac cntauto := intros ?i; cbn [app cnt opt_refs brefs lrefs]; rewrite ?cnt_app; cbn [cnt app]; lia.

  (** A thread of the buffer that drops [p], leaving the references [b0] to it. *)
  Lemma drop_in_buffer lo s b0 p d :
    counted (a_arcs s) lo (made s) (p :: b0 ++ lrefs (a_load s)) -> l_ok (length (a_arcs s)) (made s) (a_load s) ->
    lost s = concat (firstn lo (made s)) -> p <= length (made s) ->
    exists h' q xs lo', arc_drop (a_arcs s) p d = Ret (h', q, xs) /\ lo <= lo' /\ length h' = length (a_arcs s)
      /\ counted h' lo' (made s) (opt_refs q ++ b0 ++ lrefs (a_load s))
      /\ lost s ++ xs = concat (firstn lo' (made s))
      /\ match q with Some (p', d') => p' = S p /\ d' = S d /\ p' <= length (made s) /\ p = lo /\ cnt p b0 = 0 | None => True end.
  Proof.
    intros I LO LG LE.
    destruct (counted_drop _ _ _ _ p d I LE) as (h' & q & xs & lo' & E & LH & CASE).
    - destruct (Nat.lt_ge_cases p (length (made s))) as [|GE]; [now left|].
      assert (P : p = length (made s)) by lia. rewrite cnt_app.
      destruct (a_load s) as [t|t n l|t n l|t n|t p0 d0|[(p0, d0)|]]; cbn in LO |- *.
      + right. right. lia.
      + destruct LO as (-> & _). right. left. subst p. rewrite Nat.eqb_refl. lia.
      + destruct LO as (-> & _). right. left. subst p. rewrite Nat.eqb_refl. lia.
      + right. right. lia.
      + right. right. lia.
      + right. right. lia.
      + right. right. lia.
    - exists h', q, xs, lo'. destruct CASE as [(-> & -> & -> & C & _)|[(-> & -> & -> & P & -> & Z & C)|(-> & -> & P & N & -> & Z & C)]].
      + split; [exact E|]. split; [lia|]. split; [exact LH|]. split; [exact C|]. split; [now rewrite app_nil_r|exact Logic.I].
      + split; [exact E|]. split; [lia|]. split; [exact LH|]. split; [exact C|]. split; [|exact Logic.I]. rewrite app_nil_r, LG, firstn_over by lia. reflexivity.
      + rewrite cnt_app in Z. split; [exact E|]. split; [lia|]. split; [exact LH|]. split; [exact C|]. split; [|lia]. rewrite LG. symmetry. now apply concat_firstn_S.
  Qed.

  Lemma step_buffer_ok lo s : inv_at lo s -> exists s' lo', step_buffer s = Ret s' /\ inv_at lo' s' /\ lo <= lo'.
  Proof.
    intros (I & B & L & LG). destruct s as [h bf ld segs lg]. cbn [a_arcs a_buf a_load made lost] in *.
    unfold step_buffer. cbn [a_arcs a_buf a_load made lost]. pose proof (c_segs _ _ _ _ I) as SG. destruct bf as [b|b a|b a|b p d|[(p, d)|]].
    - eexists _, lo. split; [reflexivity|]. split; [|lia]. exact (conj I (conj B (conj L LG))).
    - cbn [b_ok] in B. destruct B as (B1 & B2 & B3).
      assert (AL : lo <= ad_node a < length h).
      { destruct (c_in _ _ _ _ I (head_node b)) as (? & ?); [cbn; rewrite Nat.eqb_refl; lia|lia]. }
      rewrite (counted_deref _ _ _ _ _ I AL). cbn [bind]. unfold adv_turn. rewrite (counted_view _ _ _ _ _ I AL).
      assert (CL : forall a', ad_node a' = ad_node a -> off_ok segs (ad_offset a') (ad_node a') -> exists s' lo',
        (h' <- arc_clone h (ad_node a') ;; Ret (AState h' (BCloned b a') ld segs lg)) = Ret s' /\ inv_at lo' s' /\ lo <= lo').
      { intros a' NA OA. destruct (counted_clone _ _ _ _ (ad_node a') I) as (h' & -> & C & LH); [lia|]. cbn [bind]. eexists _, lo. split; [reflexivity|].
        split; [|lia]. unfold inv_at. cbn [a_arcs a_buf a_load made lost]. rewrite LH. split; [|split; [|split; [exact L|exact LG]]].
        - eapply counted_ext; [|exact C]. cntauto.
        - cbn [b_ok]. split; [auto|]. split; [auto|]. lia. }
      unfold content. destruct (nth_error segs (ad_node a)) as [xs|] eqn:N.
      + assert (LO : ad_offset a <= length xs) by (destruct B2 as [->|(ys & N' & LO)]; [lia|congruence]).
        unfold usub. rewrite (proj2 (Nat.leb_le _ _)) by auto. cbn [bind]. destruct (Nat.ltb_spec (ad_remain a) (length xs - ad_offset a)).
        * cbn [bind]. apply CL; cbn; auto. right. exists xs. split; [auto|lia].
        * cbn [bind]. assert (ad_node a < length segs) by (apply nth_error_Some; congruence).
          eexists _, lo. split; [reflexivity|]. split; [|lia]. unfold inv_at. cbn [a_arcs a_buf a_load made lost].
          split; [exact I|]. split; [|split; [exact L|exact LG]]. cbn [b_ok ad_offset ad_node]. split; [auto|]. split; [now left|lia].
      + cbn [bind]. apply CL; auto.
    - cbn [b_ok] in B. destruct B as (B1 & B2 & B3). eexists _, lo. split; [reflexivity|]. split; [|lia]. unfold inv_at.
      cbn [a_arcs a_buf a_load made lost]. split; [|split; [|split; [exact L|exact LG]]].
      + eapply counted_ext; [|exact I]. cbn [adv_end fst brefs head_node]. cntauto.
      + cbn. split; [auto|]. lia.
    - cbn [b_ok] in B. destruct B as (B1 & B2 & B3).
      destruct (drop_in_buffer lo (AState h (BDrop b p d) ld segs lg) [head_node b] p d) as (h' & q & xs & lo' & E & LE & LH & C & LG' & Q);
        cbn [a_arcs a_buf a_load made lost] in *; auto.
      + eapply counted_ext; [|exact I]. cntauto.
      + lia.
      + rewrite E. cbn [bind]. eexists _, lo'. split; [reflexivity|]. split; [|auto]. unfold inv_at. cbn [a_arcs a_buf a_load made lost].
        rewrite LH. destruct q as [(p', d')|].
        * destruct Q as (-> & -> & Q1 & Q2 & Q3). cbn in Q3. destruct (Nat.eqb_spec (head_node b) p) as [|NE]; [lia|].
          split; [|split; [|split; [exact L|exact LG']]]; [|cbn; split; [auto|lia]]. eapply counted_ext; [|exact C]. cntauto.
        * split; [|split; [|split; [exact L|exact LG']]]; [|cbn; split; [auto|lia]]. eapply counted_ext; [|exact C]. cntauto.
    - cbn [b_ok] in B. destruct B as (B1 & B2).
      destruct (drop_in_buffer lo (AState h (BGone (Some (p, d))) ld segs lg) [] p d) as (h' & q & xs & lo' & E & LE & LH & C & LG' & Q);
        cbn [a_arcs a_buf a_load made lost] in *; auto.
      rewrite E. cbn [bind]. eexists _, lo'. split; [reflexivity|]. split; [|auto]. unfold inv_at. cbn [a_arcs a_buf a_load made lost].
      rewrite LH. split; [exact C|]. split; [|split; [exact L|exact LG']]. destruct q as [(p', d')|]; cbn; [|auto]. lia.
    - eexists _, lo. split; [reflexivity|]. split; [|lia]. exact (conj I (conj B (conj L LG))).
  Qed.

  Lemma step_loader_ok lo s : inv_at lo s -> exists s' lo', step_loader s = Ret s' /\ inv_at lo' s' /\ lo <= lo'.
  Proof.
    intros (I & B & L & LG). destruct s as [h bf ld segs lg]. cbn [a_arcs a_buf a_load made lost] in *.
    unfold step_loader. cbn [a_arcs a_buf a_load made lost]. pose proof (c_segs _ _ _ _ I) as SG.
    assert (PERM : forall l, counted h lo segs (brefs bf ++ l) -> counted h lo segs (l ++ brefs bf)).
    { intros l. apply counted_ext. intros i. rewrite !cnt_app. lia. }
    destruct ld as [t|t n xs|t n xs|t n|t p d|[(p, d)|]]; cbn [l_ok] in L.
    - eexists _, lo. split; [reflexivity|]. split; [|lia]. exact (conj I (conj B (conj L LG))).
    - destruct L as (-> & -> & L). destruct (counted_clone _ _ _ _ (S (length segs)) I) as (h' & -> & C & LH).
      { destruct (c_in _ _ _ _ I (length segs)) as (? & ?); [rewrite cnt_app; cbn; rewrite Nat.eqb_refl; lia|lia]. }
      cbn [bind]. eexists _, lo. split; [reflexivity|]. split; [|lia]. unfold inv_at. cbn [a_arcs a_buf a_load made lost]. rewrite LH.
      split; [|split; [exact B|split; [cbn; auto|exact LG]]]. eapply counted_ext; [|exact C]. cntauto.
    - destruct L as (-> & -> & L). 
      assert (LL : lo <= length segs).
      { destruct (c_in _ _ _ _ I (length segs)) as (? & ?); [rewrite cnt_app; cbn; rewrite Nat.eqb_refl; lia|lia]. }
      destruct (counted_set h lo segs (brefs bf ++ [length segs; S (length segs)]) xs) as (h' & -> & C & LH); auto.
      { eapply counted_ext; [|exact I]. cntauto. }
      { lia. }
      cbn [bind]. eexists _, lo. split; [reflexivity|]. split; [|lia]. unfold inv_at. cbn [a_arcs a_buf a_load made lost].
      rewrite LH, (firstn_snoc_le lo segs xs LL). split; [exact C|]. split; [now apply b_ok_more|]. split; [|exact LG].
      cbn. rewrite app_length. cbn. lia.
    - destruct L as (-> & L1 & L2). eexists _, lo. split; [reflexivity|]. split; [|lia]. unfold inv_at. cbn [a_arcs a_buf a_load made lost].
      split; [|split; [exact B|split; [cbn; lia|exact LG]]]. eapply counted_ext; [|exact I]. cntauto.
    - destruct L as (-> & L1 & L2).
      destruct (counted_drop h lo segs (length segs :: brefs bf) p d) as (h' & q & xs & lo' & E & LH & CASE).
      { eapply counted_ext; [|exact I]. cntauto. }
      { lia. }
      { destruct L2 as [(? & ?)|(-> & ?)]; [left; lia|right; left; cbn; rewrite Nat.eqb_refl; lia]. }
      rewrite E. cbn [bind]. eexists _, lo'. split; [reflexivity|]. unfold inv_at. cbn [a_arcs a_buf a_load made lost]. rewrite LH.
      destruct CASE as [(-> & -> & -> & C & _)|[(-> & -> & -> & P & -> & Z & C)|(-> & -> & P & N & -> & Z & C)]].
      + split; [|lia]. rewrite (app_nil_r lg). split; [|split; [exact B|split; [cbn; lia|exact LG]]]. eapply counted_ext; [|exact C]. cntauto.
      + exfalso. cbn in Z. rewrite P, Nat.eqb_refl in Z. lia.
      + split; [|lia]. split; [|split; [exact B|split; [cbn; lia|]]].
        * eapply counted_ext; [|exact C]. cntauto.
        * rewrite LG. symmetry. now apply concat_firstn_S.
    - destruct L as (-> & L1 & ->).
      destruct (counted_drop h lo segs (brefs bf) (length segs) 0) as (h' & q & xs & lo' & E & LH & CASE); auto.
      { eapply counted_ext; [|exact I]. cntauto. }
      rewrite E. cbn [bind]. eexists _, lo'. split; [reflexivity|]. unfold inv_at. cbn [a_arcs a_buf a_load made lost]. rewrite LH.
      destruct CASE as [(-> & -> & -> & C & _)|[(-> & -> & P & _ & -> & Z & C)|(-> & P & P2 & _)]].
      + split; [|lia]. rewrite (app_nil_r lg). split; [|split; [exact B|split; [cbn; lia|exact LG]]]. eapply counted_ext; [|exact C]. cntauto.
      + split; [|lia]. split; [|split; [exact B|split; [cbn; lia|]]].
        * eapply counted_ext; [|exact C]. cntauto.
        * rewrite (app_nil_r lg), LG, firstn_over by lia. reflexivity.
      + lia.
    - eexists _, lo. split; [reflexivity|]. split; [|lia]. exact (conj I (conj B (conj L LG))).
  Qed.

  Lemma a_step_ok lo s e : inv_at lo s -> exists s' lo', a_step s e = Ret s' /\ inv_at lo' s' /\ lo <= lo'.
  Proof.
    intros IV. assert (STAY : exists s' lo', Ret s = Ret s' /\ inv_at lo' s' /\ lo <= lo') by (exists s, lo; auto).
    destruct e as [n| | |xs| |]; cbn [a_step]; [| |now apply step_buffer_ok| | |now apply step_loader_ok];
      destruct IV as (I & B & L & LG).
    - destruct (a_buf s) as [b| | | |] eqn:EB; auto. eexists _, lo. split; [reflexivity|]. split; [|lia]. unfold inv_at.
      cbn [a_arcs a_buf a_load made lost]. split; [exact I|]. split; [|auto]. cbn in *. split; [apply B|]. split; [apply B|lia].
    - destruct (a_buf s) as [b| | | |] eqn:EB; auto. eexists _, lo. split; [reflexivity|]. split; [|lia]. unfold inv_at.
      cbn [a_arcs a_buf a_load made lost]. split; [exact I|]. split; [|auto]. cbn in *. lia.
    - destruct (a_load s) as [t| | | | |] eqn:EL; auto. destruct (counted_new _ _ _ _ I) as (C & N & LH).
      destruct (arc_new (a_arcs s)) as [h' n] eqn:EN. cbn [fst snd] in *. subst n. eexists _, lo. split; [reflexivity|]. split; [|lia].
      unfold inv_at. cbn [a_arcs a_buf a_load made lost]. split; [|split; [exact B|split; [cbn in *; lia|exact LG]]].
      eapply counted_ext; [|exact C]. cntauto.
    - destruct (a_load s) as [t| | | | |] eqn:EL; auto. eexists _, lo. split; [reflexivity|]. split; [|lia]. unfold inv_at.
      cbn [a_arcs a_buf a_load made lost]. split; [exact I|]. split; [exact B|]. split; [|exact LG]. cbn in *. lia.
  Qed.

  Lemma a_run_ok es : forall lo s, inv_at lo s -> exists s' lo', a_run s es = Ret s' /\ inv_at lo' s' /\ lo <= lo'.
  Proof.
    induction es as [|e es IH]; intros lo s I; cbn [a_run]; [exists s, lo; auto|].
    destruct (a_step_ok lo s e I) as (s1 & lo1 & -> & I1 & L1). cbn [bind].
    destruct (IH lo1 s1 I1) as (s2 & lo2 & E2 & I2 & L2). exists s2, lo2. split; [exact E2|]. split; [exact I2|lia].
  Qed.
End Inv.
