(** * L_EndToEnd: parsers on segments and on the plain list of their items. *)
From Coq Require Import Lia.
From Verif Require Import L_Prim L_Peg L_LiveJoin L_LiveOwn L_GenSeq2 S_EndToEnd P_Live.

Section Cut.
  Context {T : Type}.
  Implicit Types q : list (list T).

  Lemma cut_solid n q : solid (cut n q) = cut n (solid q).
  Proof.
    revert n. induction q as [|s q IH]; intros n; [reflexivity|]. cbn [cut].
    destruct s as [|x s]; [cbn [length Nat.leb]; rewrite Nat.sub_0_r; apply IH|].
    change (solid ((x :: s) :: q)) with ((x :: s) :: solid q). cbn [cut].
    destruct (Nat.leb_spec (length (x :: s)) n) as [L|L]; [apply IH|].
    destruct (skipn n (x :: s)) eqn:E; [|reflexivity]. apply (f_equal (@length T)) in E. rewrite skipn_length in E. cbn [length] in *. lia.
  Qed.
  Lemma cut_cut a b q : cut a (cut b q) = cut (b + a) q.
  Proof.
    revert a b. induction q as [|s q IH]; intros a b; [reflexivity|]. cbn [cut].
    destruct (Nat.leb_spec (length s) b) as [L|L].
    - rewrite IH, (proj2 (Nat.leb_le (length s) (b + a))) by lia. f_equal. lia.
    - cbn [cut]. rewrite skipn_length. destruct (Nat.leb_spec (length s) (b + a)) as [L2|L2].
      + rewrite (proj2 (Nat.leb_le _ _)) by lia. f_equal. lia.
      + rewrite (proj2 (Nat.leb_gt _ _)) by lia. now rewrite skipn_add.
  Qed.
  Lemma cut_concat n q : concat (cut n q) = skipn n (concat q).
  Proof.
    revert n. induction q as [|s q IH]; intros n; cbn [cut concat]; [now rewrite skipn_nil|]. rewrite skipn_app.
    destruct (Nat.leb_spec (length s) n) as [L|L].
    - rewrite IH, (skipn_all2 s) by auto. reflexivity.
    - cbn [concat]. now replace (n - length s) with 0 by lia.
  Qed.
  Lemma drop_cut n q s : ck_drop n q = Some s -> solid s = solid (cut n q).
  Proof.
    revert n. induction q as [|x q IH]; intros n; cbn [ck_drop cut].
    - destruct n; [|discriminate]. injection 1 as <-. reflexivity.
    - destruct (Nat.leb_spec n (length x)) as [L|L]; intros E.
      + injection E as <-. destruct (Nat.leb_spec (length x) n) as [L2|L2]; [|reflexivity].
        assert (n = length x) as -> by lia. rewrite skipn_all, Nat.sub_diag, cut_solid.
        change (solid ([] :: q)) with (solid q).
        clear. induction q as [|[|y q0] q IH]; [reflexivity|exact IH|].
        change (solid ((y :: q0) :: q)) with ((y :: q0) :: solid q). reflexivity.
      + rewrite (proj2 (Nat.leb_le _ _)) by lia. now apply IH.
  Qed.
  Lemma cut_head q : match cut 0 q with seg :: _ => seg <> [] | [] => concat q = [] end.
  Proof. induction q as [|[|x s] q IH]; [reflexivity|exact IH|cbn; discriminate]. Qed.
  Lemma cut_same q1 q2 n : solid q1 = solid q2 -> solid (cut n q1) = solid (cut n q2).
  Proof. intros E. now rewrite !cut_solid, E. Qed.
  Lemma concat_same q1 q2 : solid q1 = solid q2 -> concat q1 = concat q2.
  Proof. intros E. now rewrite <- (concat_solid q1), <- (concat_solid q2), E. Qed.
  Lemma head_same q1 q2 : solid q1 = solid q2 -> hd_error (cut 0 q1) = hd_error (cut 0 q2).
  Proof.
    intros E. pose proof (cut_same _ _ 0 E) as C. pose proof (cut_head q1) as H1. pose proof (cut_head q2) as H2.
    destruct (cut 0 q1) as [|[|x s1] r1] eqn:E1, (cut 0 q2) as [|[|y s2] r2] eqn:E2; try congruence; unfold solid in C; cbn in C; cbn; congruence.
  Qed.
End Cut.

Section Reads.
  Context {T : Type} (eqb : T -> T -> bool).
  Hypothesis eq_ok : decides_eq eqb.

  Lemma reads_suffix {O E} (p : lparser T O E) : forall l, exists before, l = before ++ snd (reads eqb p l).
  Proof.
    induction p as [|x|pat|O k|O0 E0 O1 E1 p0 IH0 p1 IH1|O E U p IH f|O E U p IH f|O E O' E' from p IH f|T0 T1 U E i0 i1 p IH|O T0 T1 U i0 i1 p IH|O E p IH|O E p IH|O E o0|O E e0|O E O' E' from p IH c IHc]; intros l; cbn [reads].
    - destruct l as [|x l]; [now exists []|now exists [x]].
    - destruct l as [|y l]; [now exists []|]. destruct (eqb y x); [now exists [y]|now exists []].
    - destruct (list_eqb eqb (firstn (length pat) l) pat); [exists (firstn (length pat) l); cbn; now rewrite firstn_skipn|now exists []].
    - destruct (settle k (lk_init k) (one_each l)) as [st|[n o|]]; [now exists []|exists (firstn n l); cbn; now rewrite firstn_skipn|now exists []].
    - destruct (IH0 l) as (b0 & E0'). destruct (reads eqb p0 l) as [[o|e] l0]; [|eauto]. cbn [snd] in E0'.
      destruct (IH1 l0) as (b1 & E1'). exists (b0 ++ b1). rewrite <- app_assoc.
      destruct (reads eqb p1 l0) as [[o1|e1] l1]; cbn [snd] in *; congruence.
    - specialize (IH l). destruct (reads eqb p l) as [[o|e] l0]; exact IH.
    - specialize (IH l). destruct (reads eqb p l) as [[o|e] l0]; exact IH.
    - specialize (IH l). destruct (reads eqb p l) as [[o|e] l0]; exact IH.
    - specialize (IH l). destruct (reads eqb p l) as [[[o|o]|e] l0]; exact IH.
    - specialize (IH l). destruct (reads eqb p l) as [[o|[e|e]] l0]; exact IH.
    - apply IH.
    - apply IH.
    - now exists [].
    - now exists [].
    - destruct (IH l) as (b0 & B0). destruct (reads eqb p l) as [[o|e] l0]; [|eauto]. cbn [snd] in B0.
      destruct (IHc o l0) as (b1 & B1). exists (b0 ++ b1). rewrite <- app_assoc. congruence.
  Qed.

  Lemma uncut_same {O E} (p : lparser T O E) : forall q1 q2, solid q1 = solid q2 -> uncut eqb p q1 -> uncut eqb p q2.
  Proof.
    induction p as [|x|pat|O k|O0 E0 O1 E1 p0 IH0 p1 IH1|O E U p IH f|O E U p IH f|O E O' E' from p IH f|T0 T1 U E i0 i1 p IH|O T0 T1 U i0 i1 p IH|O E p IH|O E p IH|O E o0|O E e0|O E O' E' from p IH c IHc]; intros q1 q2 S UC; cbn [uncut] in *; eauto.
    - pose proof (head_same _ _ S) as H. rewrite <- (concat_same _ _ S). destruct (cut 0 q1), (cut 0 q2); cbn in H; try discriminate; auto.
      now injection H as <-.
    - intros some rest. rewrite <- S. apply UC.
    - destruct UC as (U0 & U1). split; [eauto|]. intros o rest R. rewrite <- (concat_same _ _ S) in *.
      eapply IH1; [apply cut_same; exact S|]. eauto.
    - destruct UC as (U0 & U1). split; [eauto|]. intros o rest R. rewrite <- (concat_same _ _ S) in *.
      eapply IHc; [apply cut_same; exact S|]. eauto.
  Qed.

  (** On segments, what [reads] says, cut in the same places. *)
  Definition reads_on {O E} (f : comp (res (chunked T) O E)) (r : result O E * list T) (q : list (list T)) : Prop :=
    exists s, f = Ret (match fst r with ROk o => Ok o (Chunked s) | RErr e => Err e (Chunked s) end)
      /\ solid s = solid (cut (length (concat q) - length (snd r)) q).

  Lemma cut_0 (q : list (list T)) n : n = 0 -> solid q = solid (cut n q).
  Proof. intros ->. induction q as [|[|x s] q IH]; [reflexivity|exact IH|reflexivity]. Qed.

  Lemma take_some (q s : list (list T)) n m : ck_drop n q = Some s -> n <= length (concat q) -> m = n -> solid s = solid (cut m q).
  Proof. intros D _ ->. now apply drop_cut. Qed.

  Lemma settle_any (q : list (list T)) : settle any_looker tt q = match concat q with [] => inr VMiss | x :: _ => inr (VTake 1 x) end.
  Proof. induction q as [|[|x s] q IH]; [reflexivity|exact IH|reflexivity]. Qed.
  Lemma settle_the y (q : list (list T)) : settle (the_looker eqb y) tt q =
    match concat q with [] => inr VMiss | x :: _ => if eqb x y then inr (VTake 1 tt) else inr VMiss end.
  Proof. induction q as [|[|x s] q IH]; [reflexivity|exact IH|]. cbn. now destruct (eqb x y). Qed.

  Lemma honest_reads {O E} (p : lparser T O E) : all_honest p -> forall q, uncut eqb p q ->
    reads_on (on eqb p q) (reads eqb p (concat q)) q.
  Proof.
    unfold reads_on, on.
    induction p as [|x|pat|O k|O0 E0 O1 E1 p0 IH0 p1 IH1|O E U p IH f|O E U p IH f|O E O' E' from p IH f|T0 T1 U E i0 i1 p IH|O T0 T1 U i0 i1 p IH|O E p IH|O E p IH|O E o0|O E e0|O E O' E' from p IH c IHc]; intros NE q UC; cbn [all_honest uncut] in NE, UC.
    - cbn [reads built]. change (parse any_item (Chunked q)) with (any_item_parse (Chunked q)). rewrite (any_same q). cbn [lk_init any_looker]. rewrite settle_any.
      destruct (concat q) as [|x rest] eqn:Q; cbn [fst snd].
      + exists q. split; [reflexivity|]. apply cut_0. lia.
      + destruct (drop_some 1 q) as (s & D); [rewrite Q; cbn; lia|]. cbn [advance chunked_sequence ck_segs]. rewrite D.
        exists s. split; [reflexivity|]. eapply take_some; [exact D| |]; rewrite ?Q; cbn [length]; lia.
    - cbn [reads built]. change (parse (the_item eqb x) (Chunked q)) with (the_item_parse eqb x (Chunked q)). rewrite (the_same eqb x q). cbn [lk_init the_looker]. rewrite settle_the.
      destruct (concat q) as [|y rest] eqn:Q; [|destruct (eqb y x)]; cbn [fst snd].
      + exists q. split; [reflexivity|]. apply cut_0. lia.
      + destruct (drop_some 1 q) as (s & D); [rewrite Q; cbn; lia|]. cbn [advance chunked_sequence ck_segs]. rewrite D.
        exists s. split; [reflexivity|]. eapply take_some; [exact D| |]; rewrite ?Q; cbn [length]; lia.
      + exists q. split; [reflexivity|]. apply cut_0. lia.
    - cbn [reads built]. cbv zeta. change (parse (atom (SG := list_segment eqb) pat) (Chunked q)) with (atom_parse (SG := list_segment eqb) pat (Chunked q)).
      pose proof (atom_decides (@chunked_lawful T) eq_ok pat (Chunked q)) as (YES & NO).
      change (content (Chunked q)) with (concat q) in *.
      destruct (list_eqb eqb (firstn (length pat) (concat q)) pat) eqn:LE.
      + apply (list_eqb_ok eqb eq_ok) in LE.
        assert (PF : S_Seq.prefix pat (concat q)) by (exists (skipn (length pat) (concat q)); now rewrite <- LE at 1; rewrite firstn_skipn).
        assert (LP : length pat <= length (concat q)) by (rewrite <- LE at 1; rewrite firstn_length; lia).
        pose proof (cut_head q) as CH. pose proof (cut_0 q 0 eq_refl) as SQ.
        destruct (cut 0 q) as [|[|y seg] r] eqn:CU; [rewrite CH in LP; destruct pat; [congruence|cbn in LP; lia]|congruence|].
        specialize (UC PF). change (solid ((y :: seg) :: r)) with ((y :: seg) :: solid r) in SQ.
        rewrite (atom_same eqb 1 (fresh [] 0) (le_n 1) pat q).
        rewrite (settle_solid (atom_looker eqb pat) [] _ q (atom_steady eqb eq_ok pat NE) (witnessed_none _)), SQ.
        cbn [settle lk_init atom_looker lk_step]. rewrite (proj2 (Nat.leb_le _ _)) by exact UC.
        assert (F : firstn (length pat) (y :: seg) = pat).
        { rewrite <- LE at 2. rewrite <- (concat_solid q), SQ. cbn [concat]. rewrite firstn_app.
          replace (length pat - length (y :: seg)) with 0 by lia. now rewrite app_nil_r. }
        rewrite F, (proj2 (list_eqb_ok eqb eq_ok pat pat) eq_refl).
        destruct (drop_some _ _ LP) as (s & D). cbn [advance chunked_sequence ck_segs fst snd]. rewrite D.
        exists s. split; [reflexivity|]. eapply take_some; [exact D|exact LP|]. rewrite skipn_length. lia.
      + cbn [fst snd]. exists q. split; [|apply cut_0; lia]. apply NO. intros (PF & _). destruct PF as (r & R).
        rewrite R, firstn_app, Nat.sub_diag, firstn_all in LE. cbn in LE. rewrite app_nil_r, (proj2 (list_eqb_ok eqb eq_ok pat pat) eq_refl) in LE. discriminate.
    - destruct NE as (M & ST). cbn [reads built parse closure]. unfold look_parse. change (segments (Chunked q)) with q.
      assert (SE : settle k (lk_init k) q = settle k (lk_init k) (one_each (concat q))).
      { rewrite (settle_solid k [] _ q ST (witnessed_none k)), (UC (solid q) []) by now rewrite app_nil_r. now rewrite concat_solid. }
      rewrite <- SE. destruct (settle k (lk_init k) q) as [st|[n o|]] eqn:SQ; cbn [fst snd].
      + exists q. split; [reflexivity|]. apply cut_0. lia.
      + pose proof (settle_fits_honest _ _ _ _ M SQ) as F. destruct (drop_some _ _ F) as (s & D). cbn [advance chunked_sequence ck_segs]. rewrite D.
        exists s. split; [reflexivity|]. eapply take_some; [exact D|exact F|]. rewrite skipn_length. lia.
      + exists q. split; [reflexivity|]. apply cut_0. lia.
    - destruct NE as (N0 & N1), UC as (U0 & U1). cbn [reads built parse Join]. unfold join_parse.
      destruct (IH0 N0 q U0) as (s0 & -> & S0). destruct (reads_suffix p0 (concat q)) as (b0 & B0).
      destruct (reads eqb p0 (concat q)) as [[o0|e0] l0] eqn:R0; cbn [fst snd] in *; cbn [bind].
      + specialize (U1 o0 l0 eq_refl). pose proof (uncut_same _ _ _ (eq_sym S0) U1) as U1'.
        destruct (IH1 N1 s0 U1') as (s1 & -> & S1).
        assert (C0 : concat s0 = l0).
        { rewrite (concat_same _ _ S0), cut_concat, B0, app_length, Nat.add_sub, skipn_app, skipn_all, Nat.sub_diag. reflexivity. }
        rewrite C0 in S1 |- *. destruct (reads_suffix p1 l0) as (b1 & B1).
        assert (S2 : solid s1 = solid (cut (length (concat q) - length (snd (reads eqb p1 l0))) q)).
        { rewrite S1. rewrite (cut_same _ _ (length l0 - length (snd (reads eqb p1 l0))) S0), cut_cut. f_equal. f_equal.
          rewrite B0, app_length. apply (f_equal (@length T)) in B1. rewrite app_length in B1. lia. }
        destruct (reads eqb p1 l0) as [[o1|e1] l1]; cbn [fst snd bind] in *; exists s1; split; auto.
      + exists s0. auto.
    - cbn [reads built parse Map]. unfold map_parse. destruct (IH NE q UC) as (s & -> & S).
      destruct (reads eqb p (concat q)) as [[o|e] l]; exists s; auto.
    - cbn [reads built parse MapErr]. unfold map_err_parse. destruct (IH NE q UC) as (s & -> & S).
      destruct (reads eqb p (concat q)) as [[o|e] l]; exists s; auto.
    - cbn [reads built parse AndThen]. unfold and_then_parse. destruct (IH NE q UC) as (s & -> & S).
      destruct (reads eqb p (concat q)) as [[o|e] l]; exists s; auto. cbn [fst snd bind] in *. destruct (f o); auto.
    - cbn [reads built parse Unify]. unfold unify_parse. destruct (IH NE q UC) as (s & -> & S).
      destruct (reads eqb p (concat q)) as [[[o|o]|e] l]; exists s; auto.
    - cbn [reads built parse UnifyErr]. unfold unify_err_parse. destruct (IH NE q UC) as (s & -> & S).
      destruct (reads eqb p (concat q)) as [[o|[e|e]] l]; exists s; auto.
    - exact (IH NE q UC).
    - exact (IH NE q UC).
    - cbn [reads built parse closure fst snd]. exists q. split; [reflexivity|]. apply cut_0. lia.
    - cbn [reads built parse closure fst snd]. exists q. split; [reflexivity|]. apply cut_0. lia.
    - destruct NE as (N0 & N1), UC as (U0 & U1). cbn [reads built parse closure].
      destruct (IH N0 q U0) as (s0 & -> & S0). destruct (reads_suffix p (concat q)) as (b0 & B0).
      destruct (reads eqb p (concat q)) as [[o0|e0] l0] eqn:R0; cbn [fst snd] in *; cbn [bind].
      + specialize (U1 o0 l0 eq_refl). pose proof (uncut_same _ _ _ (eq_sym S0) U1) as U1'.
        destruct (IHc o0 (N1 o0) s0 U1') as (s1 & -> & S1).
        assert (C0 : concat s0 = l0).
        { rewrite (concat_same _ _ S0), cut_concat, B0, app_length, Nat.add_sub, skipn_app, skipn_all, Nat.sub_diag. reflexivity. }
        rewrite C0 in S1 |- *. destruct (reads_suffix (c o0) l0) as (b1 & B1). exists s1. split; [reflexivity|].
        rewrite S1. rewrite (cut_same _ _ (length l0 - length (snd (reads eqb (c o0) l0))) S0), cut_cut. f_equal. f_equal.
        rewrite B0, app_length. apply (f_equal (@length T)) in B1. rewrite app_length in B1. lia.
      + exists s0. auto.
  Qed.
  Lemma built_reads {O E} (p : lparser T O E) : well_made p -> forall q, uncut eqb p q ->
    reads_on (on eqb p q) (reads eqb p (concat q)) q.
  Proof. intros NE. apply honest_reads. now apply made_honest. Qed.
  Lemma one_each_concat (l : list T) : concat (one_each l) = l.
  Proof. induction l as [|x l IH]; [reflexivity|]. cbn. now f_equal. Qed.

  Lemma reads_more {O E} (p : lparser T O E) : well_made p -> forall l more o rest,
    reads eqb p l = (ROk o, rest) -> reads eqb p (l ++ more) = (ROk o, rest ++ more).
  Proof.
    induction p as [|x|pat|O k|O0 E0 O1 E1 p0 IH0 p1 IH1|O E U p IH f|O E U p IH f|O E O' E' from p IH f|T0 T1 U E i0 i1 p IH|O T0 T1 U i0 i1 p IH|O E p IH|O E p IH|O E o0|O E e0|O E O' E' from p IH c IHc]; intros NE l more o rest R; cbn [reads well_made] in *.
    - destruct l; [discriminate|]. injection R as <- <-. reflexivity.
    - destruct l as [|y l]; [discriminate|]. cbn. destruct (eqb y x); [|discriminate]. injection R as <- <-. reflexivity.
    - destruct (list_eqb eqb (firstn (length pat) l) pat) eqn:LE; [|discriminate]. injection R as <- <-.
      pose proof (proj1 (list_eqb_ok eqb eq_ok _ _) LE) as F.
      assert (LP : length pat <= length l) by (rewrite <- F, firstn_length; lia).
      rewrite firstn_app, skipn_app. replace (length pat - length l) with 0 by lia. cbn [firstn skipn]. now rewrite app_nil_r, LE.
    - destruct NE as (M & ST). destruct (settle k (lk_init k) (one_each l)) as [st|[n o'|]] eqn:SQ; try discriminate. injection R as <- <-.
      pose proof (settle_fits _ _ _ _ M SQ) as F. rewrite one_each_concat in F. destruct M as (_ & G).
      unfold one_each. rewrite map_app. fold (one_each l). rewrite (settle_more k _ _ n o' G _ SQ).
      rewrite skipn_app. now replace (n - length l) with 0 by lia.
    - destruct NE as (N0 & N1). destruct (reads eqb p0 l) as [[o0|e0] l0] eqn:R0; [|discriminate]. rewrite (IH0 N0 _ more _ _ R0).
      destruct (reads eqb p1 l0) as [[o1|e1] l1] eqn:R1; [|discriminate]. rewrite (IH1 N1 _ more _ _ R1). now injection R as <- <-.
    - destruct (reads eqb p l) as [[o0|e0] l0] eqn:R0; [|discriminate]. rewrite (IH NE _ more _ _ R0). now injection R as <- <-.
    - destruct (reads eqb p l) as [[o0|e0] l0] eqn:R0; [|discriminate]. rewrite (IH NE _ more _ _ R0). now injection R as <- <-.
    - destruct (reads eqb p l) as [[o0|e0] l0] eqn:R0; [|discriminate]. rewrite (IH NE _ more _ _ R0).
      destruct (f o0); [|discriminate]. now injection R as <- <-.
    - destruct (reads eqb p l) as [[[o0|o0]|e0] l0] eqn:R0; try discriminate; rewrite (IH NE _ more _ _ R0); now injection R as <- <-.
    - destruct (reads eqb p l) as [[o0|[e0|e0]] l0] eqn:R0; try discriminate; rewrite (IH NE _ more _ _ R0); now injection R as <- <-.
    - now apply IH.
    - now apply IH.
    - now injection R as <- <-.
    - discriminate.
    - destruct NE as (N0 & N1). destruct (reads eqb p l) as [[o0|e0] l0] eqn:R0; [|discriminate]. rewrite (IH N0 _ more _ _ R0). now apply IHc.
  Qed.

  Lemma cut_app n (q more : list (list T)) : n <= length (concat q) -> solid (cut n (q ++ more)) = solid (cut n q ++ more).
  Proof.
    revert n. induction q as [|s q IH]; intros n L; cbn [app cut concat] in *.
    - symmetry. apply cut_0. cbn in L. lia.
    - rewrite app_length in L. destruct (Nat.leb_spec (length s) n); [apply IH; lia|reflexivity].
  Qed.

  Lemma uncut_prefix {O E} (p : lparser T O E) : well_made p -> forall q more, uncut eqb p (q ++ more) -> uncut eqb p q.
  Proof.
    induction p as [|x|pat|O k|O0 E0 O1 E1 p0 IH0 p1 IH1|O E U p IH f|O E U p IH f|O E O' E' from p IH f|T0 T1 U E i0 i1 p IH|O T0 T1 U i0 i1 p IH|O E p IH|O E p IH|O E o0|O E e0|O E O' E' from p IH c IHc]; intros NE q more UC; cbn [uncut well_made] in *; eauto.
    - pose proof (cut_app 0 q more (Nat.le_0_l _)) as CA. pose proof (cut_head q) as H1. pose proof (cut_head (q ++ more)) as H2.
      destruct (cut 0 q) as [|seg r]; [exact I|]. intros (rest & PF).
      destruct (cut 0 (q ++ more)) as [|seg' r'].
      + destruct seg; [congruence|]. unfold solid in CA. discriminate.
      + assert (seg' = seg) as ->. { destruct seg, seg'; try congruence. unfold solid in CA. cbn in CA. congruence. }
        apply UC. exists (rest ++ concat more). now rewrite concat_app, PF, app_assoc.
    - intros some rest SQ. apply (UC some (rest ++ solid more)). now rewrite solid_app, SQ, app_assoc.
    - destruct NE as (N0 & N1), UC as (U0 & U1). split; [eauto|]. intros o rest R.
      pose proof (reads_more _ N0 _ (concat more) _ _ R) as R2. rewrite <- concat_app in R2. specialize (U1 _ _ R2).
      apply (IH1 N1 _ more). eapply uncut_same; [|exact U1].
      destruct (reads_suffix p0 (concat q)) as (before & B). rewrite R in B. cbn [snd] in B.
      apply (f_equal (@length T)) in B. rewrite app_length in B.
      replace (length (concat (q ++ more)) - length (rest ++ concat more)) with (length (concat q) - length rest)
        by (rewrite concat_app, !app_length; lia).
      apply cut_app. lia.
    - destruct NE as (N0 & N1), UC as (U0 & U1). split; [eauto|]. intros o rest R.
      pose proof (reads_more _ N0 _ (concat more) _ _ R) as R2. rewrite <- concat_app in R2. specialize (U1 _ _ R2).
      apply (IHc _ (N1 o) _ more). eapply uncut_same; [|exact U1].
      destruct (reads_suffix p (concat q)) as (before & B). rewrite R in B. cbn [snd] in B.
      apply (f_equal (@length T)) in B. rewrite app_length in B.
      replace (length (concat (q ++ more)) - length (rest ++ concat more)) with (length (concat q) - length rest)
        by (rewrite concat_app, !app_length; lia).
      apply cut_app. lia.
  Qed.

  Lemma single_ok {O E} (p : lparser T O E) : by_items p -> well_made p /\ forall q, uncut eqb p q.
  Proof.
    induction p as [|x|pat|O k|O0 E0 O1 E1 p0 IH0 p1 IH1|O E U p IH f|O E U p IH f|O E O' E' from p IH f|T0 T1 U E i0 i1 p IH|O T0 T1 U i0 i1 p IH|O E p IH|O E p IH|O E o0|O E e0|O E O' E' from p IH c IHc]; intros SA; cbn [by_items uncut well_made] in *; auto.
    - split; [now destruct pat|]. intros q. pose proof (cut_head q) as H. destruct (cut 0 q) as [|[|y seg] r]; [exact I|congruence|].
      intros _. rewrite SA. cbn. lia.
    - destruct SA as (M & ST & SA). auto.
    - destruct SA as (S0 & S1). destruct (IH0 S0) as (N0 & U0), (IH1 S1) as (N1 & U1). auto.
    - destruct SA as (S0 & S1). destruct (IH S0) as (N0 & U0). split; [split; [auto|]|].
      + intros o. now apply IHc.
      + intros q. split; [auto|]. intros o rest _. now apply IHc.
  Qed.
End Reads.

(** A buffer of an odd number of cells, as small as can be, loses nothing. *)
Lemma keeps_odd {T} (chunks : list (list T)) : keeps odd_up 0 0 chunks = concat chunks.
Proof.
  assert (X : forall len cap, len <= cap <= S len -> keeps odd_up len cap chunks = concat chunks); [|apply X; lia].
  induction chunks as [|c cs IH]; intros len cap L; [reflexivity|]. cbn [keeps concat].
  destruct (Nat.leb_spec (length c) (cap - len)) as [LE|GT].
  - assert (K : kept (cap - len) c = c).
    { unfold kept. destruct (Nat.even (cap - len)) eqn:EV; [|reflexivity].
      assert (cap - len = 0) as Z. { destruct (cap - len) as [|[|k]] eqn:Q; [reflexivity|discriminate|lia]. }
      rewrite Z in *. destruct c; [reflexivity|cbn in LE; lia]. }
    rewrite K, IH by lia. reflexivity.
  - assert (OD : Nat.even (odd_up (length c)) = false /\ length c <= odd_up (length c) <= S (length c)).
    { unfold odd_up. destruct (Nat.even (length c)) eqn:EV; [|split; [auto|lia]]. split; [|lia].
      rewrite Nat.even_succ, <- Nat.negb_even, EV. reflexivity. }
    destruct OD as (EV & B). rewrite Nat.sub_0_r. unfold kept. rewrite EV, IH by lia. reflexivity.
Qed.
