(** * P_Live: primitive parsers on the runner's sequence, property C79. *)
From Coq Require Import Lia.
From Verif Require Import L_Live P_Runner P_Prim.

(** ** What the three parsers decide *)
Section Lookers.
  Context {T : Type} (eqb : T -> T -> bool).
  Hypothesis eq_ok : decides_eq eqb.

  Lemma any_witnessed ss r : witnessed (@any_looker T) ss r ->
    match r with
    | inl _ => concat ss = []
    | inr (VTake n x) => n = 1 /\ exists rest, concat ss = x :: rest
    | inr VMiss => False
    end.
  Proof.
    induction 1 as [|ss st s W IH]; [reflexivity|].
    rewrite concat_app, IH. destruct s as [|x s]; cbn; [reflexivity|]. split; [auto|]. exists s. now rewrite app_nil_r.
  Qed.

  Lemma the_witnessed x ss r : witnessed (the_looker eqb x) ss r ->
    match r with
    | inl _ => concat ss = []
    | inr (VTake n _) => n = 1 /\ exists rest, concat ss = x :: rest
    | inr VMiss => exists y rest, concat ss = y :: rest /\ y <> x
    end.
  Proof.
    induction 1 as [|ss st s W IH]; [reflexivity|].
    rewrite concat_app, IH. destruct s as [|y s]; cbn; [reflexivity|].
    destruct (eqb y x) eqn:E.
    - apply eq_ok in E. subst y. split; [auto|]. exists s. now rewrite app_nil_r.
    - exists y, s. rewrite app_nil_r. split; [auto|]. intros ->. rewrite (proj2 (eq_ok x x) eq_refl) in E. discriminate.
  Qed.

  Lemma list_eqb_ok (a b : list T) : list_eqb eqb a b = true <-> a = b.
  Proof.
    revert b. induction a as [|x a IH]; intros [|y b]; cbn; split; try congruence; intros E.
    - apply andb_prop in E. destruct E as (A & B). apply eq_ok in A. apply IH in B. congruence.
    - injection E as -> ->. rewrite (proj2 (eq_ok y y) eq_refl), (proj2 (IH b) eq_refl). reflexivity.
  Qed.
  Lemma list_eqb_no (a b : list T) : list_eqb eqb a b = false <-> a <> b.
  Proof.
    rewrite <- list_eqb_ok. destruct (list_eqb eqb a b); split; congruence.
  Qed.

  Lemma atom_witnessed pat ss r : witnessed (atom_looker eqb pat) ss r ->
    match r with
    | inl remain => pat = concat ss ++ remain /\
        forall b1 b2 x, ss = b1 ++ x :: b2 -> length (concat b1) + length x < length pat
    | inr (VTake n _) => exists before seg rest,
        ss = before ++ [seg] /\ ends_in (length pat) before seg /\
        n = length pat - length (concat before) /\ concat ss = pat ++ rest
    | inr VMiss => forall more rest, concat ss ++ more <> pat ++ rest
    end.
  Proof.
    induction 1 as [|ss st s W IH].
    - split; [reflexivity|]. intros b1 b2 x E. destruct b1; discriminate.
    - destruct IH as (P & L). cbn [lk_step atom_looker] in *. rewrite concat_app. cbn [concat]. rewrite app_nil_r.
      destruct (length st <=? length s) eqn:E; [apply Nat.leb_le in E|apply Nat.leb_gt in E].
      + destruct (list_eqb eqb (firstn (length st) s) st) eqn:Q.
        * apply list_eqb_ok in Q. exists ss, s, (skipn (length st) s). split; [auto|]. split.
          { split; [rewrite P, app_length; lia|auto]. }
          split; [rewrite P, app_length; lia|]. rewrite P, <- app_assoc. f_equal.
          rewrite <- (firstn_skipn (length st) s) at 1. now rewrite Q.
        * apply list_eqb_no in Q. intros more rest F. apply Q. rewrite P, <- !app_assoc in F. apply app_inv_head in F.
          apply (f_equal (firstn (length st))) in F. rewrite !firstn_app, Nat.sub_diag, firstn_all in F.
          replace (length st - length s) with 0 in F by lia. cbn [firstn] in F. now rewrite !app_nil_r in F.
      + destruct (list_eqb eqb s (firstn (length s) st)) eqn:Q.
        * apply list_eqb_ok in Q. split.
          { rewrite P, <- app_assoc. f_equal. rewrite <- (firstn_skipn (length s) st) at 1. now rewrite <- Q. }
          intros b1 b2 x F. destruct b2 as [|y b2] using rev_ind.
          -- change (b1 ++ [x]) with (b1 ++ [x]) in F. apply app_inj_tail in F. destruct F as (-> & ->).
             rewrite P, app_length. lia.
          -- rewrite app_comm_cons, app_assoc in F. apply app_inj_tail in F. destruct F as (F & _). eauto.
        * apply list_eqb_no in Q. intros more rest F. apply Q. rewrite P, <- !app_assoc in F. apply app_inv_head in F.
          apply (f_equal (firstn (length s))) in F. rewrite !firstn_app, Nat.sub_diag, firstn_all in F.
          replace (length s - length st) with 0 in F by lia. cbn [firstn] in F. now rewrite !app_nil_r in F.
  Qed.

  Lemma any_modest : modest (@any_looker T).
  Proof.
    split; [|reflexivity]. intros ss n o W. destruct (any_witnessed _ _ W) as (-> & rest & ->). cbn. lia.
  Qed.
  Lemma the_modest x : modest (the_looker eqb x).
  Proof.
    split; [|reflexivity]. intros ss n o W. destruct (the_witnessed _ _ _ W) as (-> & rest & ->). cbn. lia.
  Qed.
  Lemma atom_modest pat : modest (atom_looker eqb pat).
  Proof.
    split; [|reflexivity]. intros ss n o W. destruct (atom_witnessed _ _ _ W) as (bf & seg & rest & -> & (E & _) & -> & _).
    rewrite concat_app, app_length. cbn. rewrite app_nil_r. lia.
  Qed.
End Lookers.

(** ** Any parser that takes at most what it saw *)
Section Any.
  Context {T O : Type} (p : @looker T O).
  (** The number of values of [usize]; the sequence when the parser starts, at
      any point of its life, with the segments [q] ahead. *)
  Variables (modulus : nat) (x0 : @shared T) (b : gbuffer) (q : list (list T)).
  Hypothesis version_small : version x0 < modulus.
  Hypothesis start : ahead (sh_heap x0) (sh_tail x0) b q.
  Hypothesis polite : modest p.

  (** When it is done it decided on segments that are the first of the
      sequence, and the sequence it hands back is the one it was given, with
      what has come since, without exactly the items taken. *)
  Theorem C79_taken h o a : lreach modulus p x0 b (LAdvance h o a) -> a_pc a = AReady ->
    exists n, witnessed p (returned h) (inr (VTake n o)) /\ S_Runner.prefix (returned h) (q ++ appended h) /\
      left_with (a_sh a) (a_buf a) (skipn n (concat (q ++ appended h ++ appended (a_hist a)))).
  Proof.
    intros R P. destruct polite as (M & G).
    destruct (live_reach modulus p x0 b _ G R) as (s & n & S & <- & A & D).
    destruct D as [D|(st & _ & D)]; [|rewrite G in D; discriminate].
    exists n. split; [auto|]. pose proof (C56_in_order modulus x0 b q version_small start s S) as I.
    split; [auto|]. apply (takes modulus x0 b q version_small start s n a S A P).
    pose proof (M _ _ _ D) as L. destruct I as (c & <-). rewrite concat_app, app_length. lia.
  Qed.

  (** When it misses, the sequence is handed back as it was, with what has come
      since; it decided on the first segments, or the source is done and it saw
      everything there was at the second look of the last poll.  If the source
      was done by that look, it saw everything. *)
  Theorem C79_missed_partial b' s : lreach modulus p x0 b (LMiss b' s) ->
    b' = b /\ left_with (s_sh s) b (concat (q ++ appended (s_hist s))) /\
    S_Runner.prefix (returned (s_hist s)) (q ++ appended (s_hist s)) /\
    (witnessed p (returned (s_hist s)) (inr VMiss) \/
     exists st h1 h2, witnessed p (returned (s_hist s)) (inl st) /\ s_hist s = h1 ++ EReturn None :: h2 /\
       In EDone h2 /\ returned (s_hist s) = q ++ appended (before_look h2) /\
       (In EDone (before_look h2) -> returned (s_hist s) = q ++ appended (s_hist s))).
  Proof.
    intros R. destruct polite as (M & G).
    destruct (live_reach modulus p x0 b _ G R) as (-> & S & D).
    split; [auto|]. split; [eexists; split; [eapply ahead_now; eauto|reflexivity]|].
    split; [now apply (C56_in_order modulus x0 b q version_small start)|].
    destruct D as [D|(st & h1 & h2 & W & E & E')]; [auto|]. right.
    destruct (C57_end_partial modulus x0 b q version_small start s h1 h2 S E') as (A & B & C).
    exists st, h1, h2. rewrite E. repeat (split; [solve [auto]|]). rewrite <- E. auto.
  Qed.

  (** While it waits, its futures are those of C56-C59, C64. *)
  Theorem C79_waits l : lreach modulus p x0 b l ->
    match l with
    | LLook b' st s => b' = b /\ sreach modulus x0 b s /\ witnessed p (returned (s_hist s)) (inl st)
    | LAdvance h o a => exists s n, sreach modulus x0 b s /\ s_hist s = h /\ areach modulus (s_sh s) b n a
        /\ version (s_sh s) < modulus /\ ahead (sh_heap (s_sh s)) (sh_tail (s_sh s)) b (q ++ appended h)
    | LMiss b' s => b' = b /\ sreach modulus x0 b s
    end.
  Proof.
    intros R. destruct polite as (M & G). pose proof (live_reach modulus p x0 b _ G R) as I. destruct l; cbn in I.
    - exact I.
    - destruct I as (s & n & S & <- & A & _). exists s, n. repeat (split; [solve [auto]|]).
      split; [eapply version_now; eauto|eapply ahead_now; eauto].
    - destruct I as (-> & S & _). auto.
  Qed.
End Any.

(** ** any_item, the_item, atom *)
Section Concrete.
  Context {T : Type} (eqb : T -> T -> bool).
  Hypothesis eq_ok : decides_eq eqb.
  Variables (modulus : nat) (x0 : @shared T) (b : gbuffer) (q : list (list T)).
  Hypothesis version_small : version x0 < modulus.
  Hypothesis start : ahead (sh_heap x0) (sh_tail x0) b q.

  (** All that was there and has come, after the events [h] and then [h']. *)
  Notation total h h' := (concat (q ++ appended h ++ appended h')).
  (** The miss of a parser that saw no item. *)
  Definition nothing_yet (s : @sstate T) : Prop :=
    exists h1 h2, s_hist s = h1 ++ EReturn None :: h2 /\ In EDone h2 /\
      concat (q ++ appended (before_look h2)) = [] /\
      (In EDone (before_look h2) -> concat (q ++ appended (s_hist s)) = []).

  Lemma first_items (h : list (@revent T)) x rest h' : S_Runner.prefix (returned h) (q ++ appended h) -> concat (returned h) = x :: rest ->
    exists rest', total h h' = x :: rest' /\ exists more, rest' = rest ++ more.
  Proof.
    intros (c & E) F. rewrite app_assoc, <- E, !concat_app, F. cbn. eexists. split; [reflexivity|].
    rewrite <- app_assoc. eauto.
  Qed.

  Theorem C79_any_item h x a : lreach modulus any_looker x0 b (LAdvance h x a) -> a_pc a = AReady ->
    exists rest, total h (a_hist a) = x :: rest /\ left_with (a_sh a) (a_buf a) rest.
  Proof.
    intros R P. destruct (C79_taken _ modulus x0 b q version_small start any_modest h x a R P) as (n & W & I & L).
    destruct (any_witnessed _ _ W) as (-> & rest & E). destruct (first_items h x rest (a_hist a) I E) as (r & F & _).
    exists r. split; [auto|]. now rewrite F in L.
  Qed.

  Theorem C79_any_item_missed_partial b' s : lreach modulus any_looker x0 b (LMiss b' s) ->
    b' = b /\ left_with (s_sh s) b (concat (q ++ appended (s_hist s))) /\ nothing_yet s.
  Proof.
    intros R. destruct (C79_missed_partial _ modulus x0 b q version_small start any_modest b' s R) as (A & B & _ & C).
    split; [auto|]. split; [auto|]. destruct C as [C|(st & h1 & h2 & W & E & D & F & G)]; [destruct (any_witnessed _ _ C)|].
    exists h1, h2. apply any_witnessed in W. rewrite F in W. repeat (split; [solve [auto]|]).
    intros Q. rewrite <- (G Q), F. exact W.
  Qed.

  Theorem C79_the_item x h a : lreach modulus (the_looker eqb x) x0 b (LAdvance h tt a) -> a_pc a = AReady ->
    exists rest, total h (a_hist a) = x :: rest /\ left_with (a_sh a) (a_buf a) rest.
  Proof.
    intros R P. destruct (C79_taken _ modulus x0 b q version_small start (the_modest eqb eq_ok x) h tt a R P) as (n & W & I & L).
    destruct (the_witnessed eqb eq_ok _ _ _ W) as (-> & rest & E). destruct (first_items h x rest (a_hist a) I E) as (r & F & _).
    exists r. split; [auto|]. now rewrite F in L.
  Qed.

  Theorem C79_the_item_missed_partial x b' s : lreach modulus (the_looker eqb x) x0 b (LMiss b' s) ->
    b' = b /\ left_with (s_sh s) b (concat (q ++ appended (s_hist s))) /\
    ((exists y rest, concat (q ++ appended (s_hist s)) = y :: rest /\ y <> x) \/ nothing_yet s).
  Proof.
    intros R. destruct (C79_missed_partial _ modulus x0 b q version_small start (the_modest eqb eq_ok x) b' s R) as (A & B & I & C).
    split; [auto|]. split; [auto|]. destruct C as [C|(st & h1 & h2 & W & E & D & F & G)].
    - left. destruct (the_witnessed eqb eq_ok _ _ _ C) as (y & rest & E & N).
      destruct (first_items _ y rest [] I E) as (r & Q & _). cbn in Q. rewrite app_nil_r in Q. eauto.
    - right. exists h1, h2. apply (the_witnessed eqb eq_ok) in W. rewrite F in W. repeat (split; [solve [auto]|]).
      intros Q. rewrite <- (G Q), F. exact W.
  Qed.

  (** [atom] succeeds on the pattern only, but takes what the pattern has in the
      last segment it reaches into (C26). *)
  Theorem C79_atom_partial pat h a : lreach modulus (atom_looker eqb pat) x0 b (LAdvance h tt a) -> a_pc a = AReady ->
    exists rest before seg after, total h (a_hist a) = pat ++ rest /\
      q ++ appended h ++ appended (a_hist a) = before ++ seg :: after /\ ends_in (length pat) before seg /\
      left_with (a_sh a) (a_buf a) (skipn (length pat - length (concat before)) (pat ++ rest)).
  Proof.
    intros R P. destruct (C79_taken _ modulus x0 b q version_small start (atom_modest eqb eq_ok pat) h tt a R P) as (n & W & (c & I) & L).
    destruct (atom_witnessed eqb eq_ok _ _ _ W) as (bf & seg & rest & E & N & -> & F).
    assert (Q : q ++ appended h ++ appended (a_hist a) = returned h ++ (c ++ appended (a_hist a))).
    { now rewrite !app_assoc, I. }
    exists (rest ++ concat (c ++ appended (a_hist a))), bf, seg, (c ++ appended (a_hist a)).
    rewrite Q in L |- *. rewrite concat_app, F, <- app_assoc in L |- *. split; [auto|]. split; [|auto].
    rewrite E, <- app_assoc. reflexivity.
  Qed.

  (** If the first segment covers the pattern it takes exactly that. *)
  Theorem C79_atom_covered_partial pat h a seg after :
    lreach modulus (atom_looker eqb pat) x0 b (LAdvance h tt a) -> a_pc a = AReady ->
    q ++ appended h = seg :: after -> length pat <= length seg ->
    exists rest, total h (a_hist a) = pat ++ rest /\ left_with (a_sh a) (a_buf a) rest.
  Proof.
    intros R P E L. destruct (C79_atom_partial pat h a R P) as (rest & bf & sg & af & A & B & (C1 & C2) & D).
    exists rest. split; [auto|]. assert (bf = []) as ->.
    { destruct bf as [|x bf]; [auto|]. exfalso. specialize (C2 [] bf x eq_refl). cbn in C2.
      rewrite app_assoc, E in B. cbn in B. injection B as <- _. lia. }
    cbn in D. rewrite Nat.sub_0_r, skipn_app, skipn_all, Nat.sub_diag in D. exact D.
  Qed.

  (** A miss of [atom]: what there is does not begin with the pattern, or the
      end came with a proper beginning of the pattern. *)
  Theorem C79_atom_missed_partial pat b' s : lreach modulus (atom_looker eqb pat) x0 b (LMiss b' s) ->
    b' = b /\ left_with (s_sh s) b (concat (q ++ appended (s_hist s))) /\
    ((forall more rest, concat (q ++ appended (s_hist s)) ++ more <> pat ++ rest) \/
     exists h1 h2 remain, s_hist s = h1 ++ EReturn None :: h2 /\ In EDone h2 /\
      pat = concat (q ++ appended (before_look h2)) ++ remain /\
      (In EDone (before_look h2) -> pat = concat (q ++ appended (s_hist s)) ++ remain)).
  Proof.
    intros R. destruct (C79_missed_partial _ modulus x0 b q version_small start (atom_modest eqb eq_ok pat) b' s R) as (A & B & (c & I) & C).
    split; [auto|]. split; [auto|]. destruct C as [C|(st & h1 & h2 & W & E & D & F & G)].
    - left. intros more rest Q. apply (atom_witnessed eqb eq_ok) in C. rewrite <- I, concat_app, <- app_assoc in Q.
      now apply C in Q.
    - right. exists h1, h2, st. apply (atom_witnessed eqb eq_ok) in W. destruct W as (W & _).
      rewrite F in W. repeat (split; [solve [auto]|]). intros Q. rewrite <- (G Q), F. exact W.
  Qed.
End Concrete.

(** ** A source that is done when the parser starts *)
Section Complete.
  Context {T O : Type} (p : @looker T O).

  Local Notation settle := (S_Live.settle p).

  Lemma witnessed_settle ss r : witnessed p ss r -> forall more,
    settle (lk_init p) (ss ++ more) = match r with inl st => settle st more | inr v => inr v end.
  Proof.
    induction 1 as [|ss st s W IH]; intros more; [reflexivity|].
    rewrite <- app_assoc, IH. cbn. now destruct (lk_step p st (Some s)).
  Qed.

  (** A parser that does what [p] does. *)
  Definition same_parser (parser : pfun (chunked T) O (Miss unit)) : Prop :=
    forall q, parser (Chunked q) =
      match settle (lk_init p) q with
      | inr (VTake n o) => r <- advance (Chunked q) n ;; M_Base.done o r
      | _ => fail (MkMiss tt) (Chunked q)
      end.

  Variables (modulus : nat) (x0 : @shared T) (b : gbuffer) (q : list (list T)).
  Hypothesis version_small : version x0 < modulus.
  Hypothesis start : ahead (sh_heap x0) (sh_tail x0) b q.
  Hypothesis polite : modest p.
  Hypothesis is_done : done_flag x0 = true.
  Variable parser : pfun (chunked T) O (Miss unit).
  Hypothesis same : same_parser parser.

  Lemma complete_taken h o a : lreach modulus p x0 b (LAdvance h o a) -> a_pc a = AReady ->
    exists s', parser (Chunked q) = Ret (Ok o s') /\ left_with (a_sh a) (a_buf a) (content s').
  Proof.
    intros R P. destruct polite as (M & G).
    destruct (C79_taken p modulus x0 b q version_small start polite h o a R P) as (n & W & (c & I) & L).
    destruct (C79_waits p modulus x0 b q version_small start polite _ R) as (s & n' & S & E & A & V & H).
    assert (D1 : appended h = []) by (rewrite <- E; exact (done_appended modulus x0 b q version_small start s is_done S)).
    assert (D2 : appended (a_hist a) = []).
    { exact (adone_appended modulus x0 b version_small (s_sh s) n' a (done_stays modulus x0 b s is_done S) V _ H A). }
    rewrite D1, app_nil_r in I. rewrite D1, D2, !app_nil_r in L.
    rewrite (same q), <- I, (witnessed_settle _ _ W c).
    assert (N : n <= length (concat q)).
    { rewrite <- I, concat_app, app_length. pose proof (M _ _ _ W). lia. }
    destruct (C23_segmentations_are_lawful (Chunked q) (firstn n (concat q)) (skipn n (concat q))) as (s' & E' & C').
    { cbn. now rewrite firstn_skipn. }
    rewrite firstn_length_le in E' by auto. exists s'. rewrite I, E'. split; [reflexivity|].
    now rewrite C'.
  Qed.

  Lemma complete_missed b' s : lreach modulus p x0 b (LMiss b' s) ->
    parser (Chunked q) = Ret (Err (MkMiss tt) (Chunked q)) /\ b' = b /\ left_with (s_sh s) b (concat q).
  Proof.
    intros R. destruct polite as (M & G).
    destruct (C79_missed_partial p modulus x0 b q version_small start polite b' s R) as (A & L & (c & I) & C).
    destruct (C79_waits p modulus x0 b q version_small start polite _ R) as (_ & S).
    assert (D1 : appended (s_hist s) = []) by exact (done_appended modulus x0 b q version_small start s is_done S).
    rewrite D1, app_nil_r in L, I. split; [|auto]. rewrite (same q), <- I.
    destruct C as [W|(st & h1 & h2 & W & E & D & F & _)].
    - now rewrite (witnessed_settle _ _ W c).
    - assert (appended (before_look h2) = []) as Q.
      { destruct (before_look_split h2) as (h3 & E3). rewrite E, E3, appended_app in D1. cbn in D1.
        rewrite appended_app in D1. now destruct (appended (before_look h2)). }
      rewrite Q, app_nil_r in F. rewrite F in *. assert (c = []) as ->.
      { apply (app_inv_head q). now rewrite app_nil_r. }
      rewrite (witnessed_settle _ _ W []). cbn [settle]. now rewrite G.
  Qed.
End Complete.

(** ** The primitive parsers on a source that is done *)
Section Done.
  Context {T : Type} (eqb : T -> T -> bool).
  Variables (modulus : nat) (x0 : @shared T) (b : gbuffer) (q : list (list T)).
  Hypothesis version_small : version x0 < modulus.
  Hypothesis start : ahead (sh_heap x0) (sh_tail x0) b q.
  Hypothesis is_done : done_flag x0 = true.

  Lemma any_loop_same ss (s : chunked T) : any_item_loop ss s =
    match settle (@any_looker T) tt ss with
    | inr (VTake n o) => r <- advance s n ;; M_Base.done o r
    | _ => fail (MkMiss tt) s
    end.
  Proof. induction ss as [|[|x sg] ss IH]; auto. Qed.
  Lemma any_same : same_parser (@any_looker T) any_item_parse.
  Proof. intros ss. apply any_loop_same. Qed.

  Lemma the_loop_same x ss (s : chunked T) : the_item_loop eqb x ss s =
    match settle (the_looker eqb x) tt ss with
    | inr (VTake n o) => r <- advance s n ;; M_Base.done o r
    | _ => fail (MkMiss tt) s
    end.
  Proof.
    induction ss as [|[|y sg] ss IH]; auto. cbn. now destruct (eqb y x).
  Qed.
  Lemma the_same x : same_parser (the_looker eqb x) (the_item_parse eqb x).
  Proof. intros ss. apply the_loop_same. Qed.

  Lemma atom_loop_same pat ss (s : chunked T) : let SG := list_segment eqb in forall remain,
    atom_loop remain ss s =
    match settle (atom_looker eqb pat) remain ss with
    | inr (VTake n o) => r <- advance s n ;; M_Base.done o r
    | _ => fail (MkMiss tt) s
    end.
  Proof.
    intros SG. induction ss as [|sg ss IH]; intros remain; [reflexivity|].
    cbn [atom_loop settle lk_step atom_looker]. cbn [seg_len seg_split_at seg_eqb SG list_segment].
    unfold list_split_at. destruct (length remain <=? length sg) eqn:E.
    - cbn [bind]. now destruct (list_eqb eqb (firstn (length remain) sg) remain).
    - apply Nat.leb_gt in E. replace (length sg <=? length remain) with true by (symmetry; apply Nat.leb_le; lia).
      cbn [bind]. destruct (list_eqb eqb sg (firstn (length sg) remain)); cbn [negb]; [apply IH|reflexivity].
  Qed.
  Lemma atom_same pat : let SG := list_segment eqb in same_parser (atom_looker eqb pat) (atom_parse pat).
  Proof. intros SG ss. apply atom_loop_same. Qed.

  (** They answer as on the segments given all at once, and leave the same. *)
  Theorem C79_any_item_complete l : lreach modulus any_looker x0 b l -> answered l ->
    match l with
    | LAdvance h x a => exists s', parse any_item (Chunked q) = Ret (Ok x s') /\ left_with (a_sh a) (a_buf a) (content s')
    | LMiss b' s => parse any_item (Chunked q) = Ret (Err (MkMiss tt) (Chunked q)) /\ b' = b /\ left_with (s_sh s) b (concat q)
    | LLook _ _ _ => False
    end.
  Proof.
    destruct l as [b' st s|h o a|b' s]; intros R A; [destruct A| |].
    - exact (complete_taken _ modulus x0 b q version_small start any_modest is_done _ any_same h o a R A).
    - exact (complete_missed _ modulus x0 b q version_small start any_modest is_done _ any_same b' s R).
  Qed.

  Theorem C79_the_item_complete x l : decides_eq eqb -> lreach modulus (the_looker eqb x) x0 b l -> answered l ->
    match l with
    | LAdvance h o a => exists s', parse (the_item eqb x) (Chunked q) = Ret (Ok tt s') /\ left_with (a_sh a) (a_buf a) (content s')
    | LMiss b' s => parse (the_item eqb x) (Chunked q) = Ret (Err (MkMiss tt) (Chunked q)) /\ b' = b /\ left_with (s_sh s) b (concat q)
    | LLook _ _ _ => False
    end.
  Proof.
    intros HE. destruct l as [b' st s|h [] a|b' s]; intros R A; [destruct A| |].
    - exact (complete_taken _ modulus x0 b q version_small start (the_modest eqb HE x) is_done _ (the_same x) h tt a R A).
    - exact (complete_missed _ modulus x0 b q version_small start (the_modest eqb HE x) is_done _ (the_same x) b' s R).
  Qed.

  Theorem C79_atom_complete pat l : decides_eq eqb -> lreach modulus (atom_looker eqb pat) x0 b l -> answered l ->
    let SG := list_segment eqb in
    match l with
    | LAdvance h o a => exists s', parse (atom pat) (Chunked q) = Ret (Ok tt s') /\ left_with (a_sh a) (a_buf a) (content s')
    | LMiss b' s => parse (atom pat) (Chunked q) = Ret (Err (MkMiss tt) (Chunked q)) /\ b' = b /\ left_with (s_sh s) b (concat q)
    | LLook _ _ _ => False
    end.
  Proof.
    intros HE. destruct l as [b' st s|h [] a|b' s]; intros R A; [destruct A| |]; intros SG.
    - exact (complete_taken _ modulus x0 b q version_small start (atom_modest eqb HE pat) is_done _ (atom_same pat) h tt a R A).
    - exact (complete_missed _ modulus x0 b q version_small start (atom_modest eqb HE pat) is_done _ (atom_same pat) b' s R).
  Qed.
End Done.

(** ** No panic, and no deadlock once the source is done *)
Section Ends.
  Context {T O : Type} (p : @looker T O).
  Variables (modulus : nat) (x0 : @shared T) (b : gbuffer) (q : list (list T)).
  Hypothesis version_small : version x0 < modulus.
  Hypothesis start : ahead (sh_heap x0) (sh_tail x0) b q.
  Hypothesis polite : modest p.

  Theorem C79_no_panic l : lreach modulus p x0 b l ->
    match l with
    | LLook _ _ s | LMiss _ s => s_pc s <> SPanicked
    | LAdvance _ _ a => a_pc a <> APanicked
    end.
  Proof.
    intros R. assert (W := C79_waits p modulus x0 b q version_small start polite _ R).
    destruct l as [b' st s|h o a|b' s].
    - destruct W as (_ & S & _). eapply C56_no_panic; eauto.
    - clear W. remember (LAdvance h o a) as l eqn:E. revert h o a E.
      induction R as [|l l' R IH St]; intros h o a E; [discriminate|].
      destruct St; try discriminate.
      + unfold after in E. destruct (lk_step p st r) as [?|[n o'|]]; try discriminate. injection E as <- <- <-. discriminate.
      + injection E as <- <- <-. specialize (IH _ _ _ eq_refl). intros F.
        destruct (C79_waits p modulus x0 b q version_small start polite _ R) as (s & n & S & <- & A & V & H1).
        apply H0. exact (C59_no_panic_partial modulus _ _ _ V H1 n a0 a' A IH H F).
      + injection E as <- <- <-. exact (IH _ _ _ eq_refl).
    - destruct W as (_ & S). eapply C56_no_panic; eauto.
  Qed.

  (** From any state the parser can get to its answer by itself. *)
  Theorem C79_finishes l : done_flag x0 = true -> lreach modulus p x0 b l ->
    exists l', leads modulus p l l' /\ answered l'.
  Proof.
    intros D R. destruct polite as (M & G).
    assert (W := C79_waits p modulus x0 b q version_small start polite _ R).
    assert (N := C79_no_panic l R). destruct l as [b' st s|h o a|b' s].
    - destruct W as (-> & S & _).
      destruct (look_ends modulus p x0 b q version_small start st s (fun st => ex_intro _ VMiss (G st)) D _ (le_n _) S) as (l & L & P).
      destruct l as [? ? ?|h o a|? ?]; [destruct P| |exists (LMiss b0 s0); split; [exact L|exact I]].
      destruct P as (s1 & n & S1 & ->).
      destruct (advance_ends modulus p x0 b version_small h o (s_sh s1) n (ainit (s_sh s1) b n) (q ++ appended (s_hist s1))) as (a' & L' & P').
      + exact (done_stays modulus x0 b s1 D S1).
      + exact (version_now modulus x0 b q version_small start s1 S1).
      + exact (ahead_now modulus x0 b q version_small start s1 S1).
      + constructor.
      + discriminate.
      + exists (LAdvance h o a'). split; [eapply leads_trans; eauto|exact P'].
    - destruct W as (s & n & S & <- & A & V & H).
      destruct (advance_ends modulus p x0 b version_small (s_hist s) o (s_sh s) n a (q ++ appended (s_hist s))) as (a' & L' & P'); auto.
      + exact (done_stays modulus x0 b s D S).
      + exists (LAdvance (s_hist s) o a'). split; auto.
    - exists (LMiss b' s). split; [constructor|exact I].
  Qed.
End Ends.

(** ** C79 as stated is false *)
Ltac tidy_live R := cbn [s_sh s_iter s_fut s_pc s_hist note begin_poll wake_by_ref register sh_heap sh_tail
  version done_flag registered draining woken orb gsegments head_offset head_node buffer_new after lk_step
  it_offset it_node a_sh a_buf a_remain a_fut a_pc a_hist adv_begin adv_end fst snd ad_node ad_offset ad_remain
  list_set app length lk_init lk_state any_looker sinit ainit start_history fresh] in R.

(** As in C57, [any_item] misses although an item is there and the source has
    said that it is done. *)
Theorem C79_missed_refuted modulus : 0 < modulus ->
  exists b' (s : @sstate nat), lreach modulus any_looker (fresh [None] 0) buffer_new (LMiss b' s) /\
    appended (s_hist s) = [[7]] /\ left_with (s_sh s) b' [7].
Proof.
  intros M. pose proof (lr_init modulus (@any_looker nat) (fresh (@cons (option (list nat * nat)) None nil) 0) buffer_new) as R. tidy_live R.
  eapply lr_step in R; [|apply lv_poll; [apply ss_next|discriminate]]. tidy_live R.
  eapply lr_step in R; [|apply lv_poll; [apply ss_poll|discriminate]]. tidy_live R.
  eapply lr_step in R; [|apply lv_poll; [apply ss_fut_none|discriminate]]. tidy_live R.
  eapply lr_step in R; [|apply lv_poll; [apply ss_next1_none; reflexivity|discriminate]]. tidy_live R.
  eapply lr_step in R; [|apply lv_poll; [apply ss_wait|discriminate]]. tidy_live R.
  eapply lr_step in R; [|apply lv_poll; [apply ss_next2_none; reflexivity|discriminate]]. tidy_live R.
  eapply lr_step in R; [|apply lv_loader; eapply (ls_append modulus) with (seg := [7]); reflexivity]. tidy_live R.
  eapply lr_step in R; [|apply lv_loader, ls_done]. tidy_live R.
  eapply lr_step in R; [|eapply lv_answer with (r := None); [apply ss_done; reflexivity|reflexivity]]. tidy_live R.
  eexists _, _. split; [exact R|]. split; [reflexivity|].
  exists [[7]]. split; [|reflexivity]. exists [[7]]. split; [|cbn; auto].
  eapply chain_node; [reflexivity|]. constructor. reflexivity.
Qed.

(** ** Cases *)
(** From a sequence well into its life, with an empty segment ahead: [any_item]
    takes the 7 that is appended while it waits, before the 8. *)
Definition midlife : @shared nat := Shared [Some ([1; 2], 1); Some ([], 2); None] 2 5 false false 0 false.
Example C79_case_start : version midlife < 16 /\ ahead (sh_heap midlife) (sh_tail midlife) (GBuffer 2 0) [[]; []].
Proof.
  split; [cbn; lia|]. exists [[1; 2]; []]. split; [|cbn; auto].
  eapply chain_node; [reflexivity|]. eapply chain_node; [reflexivity|]. now constructor.
Qed.
Example C79_case : exists h (a : @astate nat),
  lreach 16 any_looker midlife (GBuffer 2 0) (LAdvance h 7 a) /\ a_pc a = AReady /\
  appended h = [[7; 8]] /\ appended (a_hist a) = [[9]].
Proof.
  pose proof (lr_init 16 (@any_looker nat) midlife (GBuffer 2 0)) as R. unfold midlife in R. tidy_live R.
  eapply lr_step in R; [|apply lv_poll; [apply ss_next|discriminate]]. tidy_live R.
  eapply lr_step in R; [|apply lv_poll; [apply ss_poll|discriminate]]. tidy_live R.
  eapply lr_step in R; [|apply lv_poll; [apply ss_fut_none|discriminate]]. tidy_live R.
  eapply lr_step in R; [|eapply lv_answer with (r := Some []); [eapply ss_next1_some; reflexivity|reflexivity]]. tidy_live R.
  eapply lr_step in R; [|apply lv_poll; [apply ss_next|discriminate]]. tidy_live R.
  eapply lr_step in R; [|apply lv_poll; [apply ss_poll|discriminate]]. tidy_live R.
  eapply lr_step in R; [|apply lv_poll; [apply ss_fut_none|discriminate]]. tidy_live R.
  eapply lr_step in R; [|eapply lv_answer with (r := Some []); [eapply ss_next1_some; reflexivity|reflexivity]]. tidy_live R.
  eapply lr_step in R; [|apply lv_poll; [apply ss_next|discriminate]]. tidy_live R.
  eapply lr_step in R; [|apply lv_poll; [apply ss_poll|discriminate]]. tidy_live R.
  eapply lr_step in R; [|apply lv_poll; [apply ss_fut_none|discriminate]]. tidy_live R.
  eapply lr_step in R; [|apply lv_poll; [apply ss_next1_none; reflexivity|discriminate]]. tidy_live R.
  eapply lr_step in R; [|apply lv_loader; eapply (ls_append 16) with (seg := [7; 8]); reflexivity]. tidy_live R.
  eapply lr_step in R; [|apply lv_poll; [apply ss_wait|discriminate]]. tidy_live R.
  eapply lr_step in R; [|eapply lv_answer with (r := Some [7; 8]); [eapply ss_next2_some; reflexivity|reflexivity]]. tidy_live R.
  eapply lr_step in R; [|apply lv_advance; [apply as_poll|discriminate]]. tidy_live R.
  eapply lr_step in R; [|apply lv_advance; [apply as_fut_none|discriminate]]. tidy_live R.
  eapply lr_step in R; [|apply lv_advance; [apply as_wait|discriminate]]. tidy_live R.
  eapply lr_step in R; [|apply lv_advance; [apply as_turn; reflexivity|discriminate]]. tidy_live R.
  eapply lr_step in R; [|apply lv_advanced; eapply (ls_append 16) with (seg := [9]); reflexivity]. tidy_live R.
  eapply lr_step in R; [|apply lv_advance; [apply as_turn; reflexivity|discriminate]]. tidy_live R.
  eapply lr_step in R; [|apply lv_advance; [apply as_last; reflexivity|discriminate]]. tidy_live R.
  eapply lr_step in R; [|apply lv_advance; [apply as_all; reflexivity|discriminate]]. tidy_live R.
  eexists _, _. split; [exact R|]. repeat split; reflexivity.
Qed.

(** A source that is done: [atom] over two segments, and [the_item] missing. *)
Definition finished : @shared nat := Shared [Some ([1], 1); Some ([2], 2); None] 2 5 true false 0 false.
Example C79_done_start : version finished < 16 /\ done_flag finished = true /\
  ahead (sh_heap finished) (sh_tail finished) buffer_new [[1]; [2]].
Proof.
  split; [cbn; lia|]. split; [reflexivity|]. exists [[1]; [2]]. split; [|cbn; auto].
  eapply chain_node; [reflexivity|]. eapply chain_node; [reflexivity|]. now constructor.
Qed.
Example C79_done_atom : exists h (a : @astate nat),
  lreach 16 (atom_looker Nat.eqb [1; 2]) finished buffer_new (LAdvance h tt a) /\ a_pc a = AReady.
Proof.
  pose proof (lr_init 16 (atom_looker Nat.eqb [1; 2]) finished buffer_new) as R. unfold finished, buffer_new in R. tidy_live R.
  eapply lr_step in R; [|apply lv_poll; [apply ss_next|discriminate]]. tidy_live R.
  eapply lr_step in R; [|apply lv_poll; [apply ss_poll|discriminate]]. tidy_live R.
  eapply lr_step in R; [|apply lv_poll; [apply ss_fut_none|discriminate]]. tidy_live R.
  eapply lr_step in R; [|eapply lv_answer with (r := Some [1]); [eapply ss_next1_some; reflexivity|reflexivity]]. cbn in R.
  eapply lr_step in R; [|apply lv_poll; [apply ss_next|discriminate]]. tidy_live R.
  eapply lr_step in R; [|apply lv_poll; [apply ss_poll|discriminate]]. tidy_live R.
  eapply lr_step in R; [|apply lv_poll; [apply ss_fut_none|discriminate]]. tidy_live R.
  eapply lr_step in R; [|eapply lv_answer with (r := Some [2]); [eapply ss_next1_some; reflexivity|reflexivity]]. cbn in R.
  eapply lr_step in R; [|apply lv_advance; [apply as_poll|discriminate]]. tidy_live R.
  eapply lr_step in R; [|apply lv_advance; [apply as_fut_none|discriminate]]. tidy_live R.
  eapply lr_step in R; [|apply lv_advance; [apply as_wait|discriminate]]. tidy_live R.
  eapply lr_step in R; [|apply lv_advance; [apply as_turn; reflexivity|discriminate]]. tidy_live R.
  eapply lr_step in R; [|apply lv_advance; [apply as_last; reflexivity|discriminate]]. tidy_live R.
  eapply lr_step in R; [|apply lv_advance; [apply as_all; reflexivity|discriminate]]. tidy_live R.
  eexists _, _. split; [exact R|reflexivity].
Qed.
Example C79_done_miss : exists s : @sstate nat, lreach 16 (the_looker Nat.eqb 3) finished buffer_new (LMiss buffer_new s).
Proof.
  pose proof (lr_init 16 (the_looker Nat.eqb 3) finished buffer_new) as R. unfold finished, buffer_new in R. tidy_live R.
  eapply lr_step in R; [|apply lv_poll; [apply ss_next|discriminate]]. tidy_live R.
  eapply lr_step in R; [|apply lv_poll; [apply ss_poll|discriminate]]. tidy_live R.
  eapply lr_step in R; [|apply lv_poll; [apply ss_fut_none|discriminate]]. tidy_live R.
  eapply lr_step in R; [|eapply lv_answer with (r := Some [1]); [eapply ss_next1_some; reflexivity|reflexivity]]. cbn in R.
  eexists. exact R.
Qed.

Print Assumptions C79_taken.
Print Assumptions C79_missed_partial.
Print Assumptions C79_waits.
Print Assumptions C79_any_item.
Print Assumptions C79_any_item_missed_partial.
Print Assumptions C79_the_item.
Print Assumptions C79_the_item_missed_partial.
Print Assumptions C79_atom_partial.
Print Assumptions C79_atom_covered_partial.
Print Assumptions C79_atom_missed_partial.
Print Assumptions C79_any_item_complete.
Print Assumptions C79_the_item_complete.
Print Assumptions C79_atom_complete.
Print Assumptions C79_no_panic.
Print Assumptions C79_finishes.
Print Assumptions C79_missed_refuted.
