(** * L_Cost: lemmas for S_Cost. *)
From Verif Require Export S_Cost L_PegOn L_Ends.

(** ** The record of a run *)
Section Depth.
  Context {T : Type} (rules : nat -> gexp T).

  (** [calls] with the depth to which parser functions are called. *)
  Inductive callsd : nat -> gexp T -> list T -> list tick -> Prop :=
  | cd_any d l : callsd d GAny l [Tried]
  | cd_the d x l : callsd d (GThe x) l [Tried]
  | cd_atom d p l : callsd d (GAtom p) l [Tried]
  | cd_join d a b l t m h k : peg rules a l (PSucc t m) -> callsd d a l h -> callsd d b m k -> callsd d (GJoin a b) l (h ++ k)
  | cd_join_not d a b l o h : peg rules a l o -> (forall t m, o <> PSucc t m) -> callsd d a l h -> callsd d (GJoin a b) l h
  | cd_or d a b l o h : peg rules a l o -> o <> PFail -> callsd d a l h -> callsd d (GOr a b) l h
  | cd_or_next d a b l h k : peg rules a l PFail -> callsd d a l h -> callsd d b l k -> callsd d (GOr a b) l (h ++ Undid :: k)
  | cd_opt d a l o h : peg rules a l o -> o <> PFail -> callsd d a l h -> callsd d (GOpt a) l h
  | cd_opt_not d a l h : peg rules a l PFail -> callsd d a l h -> callsd d (GOpt a) l (h ++ [Undid])
  | cd_rep_end d a l h : peg rules a l PFail -> callsd d a l h -> callsd d (GRep a) l (h ++ [Undid])
  | cd_rep_cut d a l h : peg rules a l PCut -> callsd d a l h -> callsd d (GRep a) l h
  | cd_rep_more d a l t m h k : peg rules a l (PSucc t m) -> callsd d a l h -> callsd d (GRep a) m k -> callsd d (GRep a) l (h ++ k)
  | cd_cut d a l h : callsd d a l h -> callsd d (GCut a) l h
  | cd_ref d i l h : callsd d (rules i) l h -> callsd (Datatypes.S d) (GRef i) l h.

  #[local] Hint Constructors calls : core.
  Lemma callsd_calls d e l h : callsd d e l h -> calls rules e l h.
  Proof. induction 1; eauto. Qed.

  Lemma calls_det e l h : calls rules e l h -> forall k, calls rules e l k -> h = k.
  Proof.
    induction 1; intros k' K; inversion K; subst; auto;
      repeat match goal with
      | A : peg rules ?a ?l ?o, B : peg rules ?a ?l ?o' |- _ =>
          lazymatch o with o' => fail | _ => pose proof (peg_det rules _ _ _ A _ B); clear B; try discriminate; subst end
      end; try congruence;
      try match goal with X : PSucc _ _ = PSucc _ _ |- _ => injection X as <- <- end;
      try (exfalso; match goal with X : forall t m, PSucc _ _ <> PSucc t m |- _ => now eapply X end);
      repeat match goal with IH : forall k, calls rules ?a ?l k -> ?h = k, X : calls rules ?a ?l ?k |- _ => apply IH in X; subst end; auto.
  Qed.

  (** What is answered is answered with a record. *)
  Lemma answered_calls e l o : peg rules e l o -> exists h, calls rules e l h.
  Proof.
    induction 1; repeat match goal with X : exists h, calls rules _ _ h |- _ => destruct X as (? & ?) end;
      eexists; first
        [ now eauto
        | eapply ca_join_not; eauto; discriminate
        | eapply ca_or; eauto; discriminate
        | eapply ca_opt; eauto; discriminate ].
  Qed.
End Depth.

Section Record.
  Context {S A T : Type} {RW : RewindSequence S A} (P : prims S T) (rules : nat -> gexp T).
  Context (later : S -> S -> Prop) (cont : S -> list T).
  Hypothesis back_ok : forall s m, later s m -> rewind m (anchor s) = Ret s.
  Notation run fuel e := (parse (parser_on P rules fuel e)).
  Notation runs fuel e := (parse (parser_on (ticking_prims P) rules fuel e)).
  Hypothesis ok : forall fuel e s r, run fuel e s = Ret r ->
    exists o, outcome_on later cont s (Ret r) o /\ peg rules e (cont s) o.

  Definition records {O E} (Q : list tick -> Prop) (h : list tick) (c : comp (res S O E)) (c' : comp (res (S * list tick) O E)) : Prop :=
    match c with
    | Ret r => exists cs, Q cs /\ c' = Ret (logged (h ++ cs) r)
    | Panic => c' = Panic
    | UB => c' = UB
    | OutOfFuel => c' = OutOfFuel
    end.

  Lemma on_any {S0 A0} {RW0 : RewindSequence S0 A0} (P0 : prims S0 T) fuel s : parse (parser_on P0 rules fuel GAny) s =
    r <- parse (p_any P0) s ;; match r with Ok x s' => Ret (Ok (TItem x) s') | Err _ s' => Ret (Err EMiss s') end.
  Proof.
    transitivity (parse (MapErr (Map (p_any P0) TItem) flatten) s); [destruct fuel; reflexivity|].
    cbn [parse MapErr]. unfold map_err_parse. cbn [parse Map]. unfold map_parse.
    now destruct (parse (p_any P0) s) as [[|[]]| | |].
  Qed.
  Lemma on_the {S0 A0} {RW0 : RewindSequence S0 A0} (P0 : prims S0 T) fuel x s : parse (parser_on P0 rules fuel (GThe x)) s =
    r <- parse (p_the P0 x) s ;; match r with Ok _ s' => Ret (Ok TUnit s') | Err _ s' => Ret (Err EMiss s') end.
  Proof.
    transitivity (parse (MapErr (Map (p_the P0 x) (fun _ => TUnit : gtree T)) flatten) s); [destruct fuel; reflexivity|].
    cbn [parse MapErr]. unfold map_err_parse. cbn [parse Map]. unfold map_parse.
    now destruct (parse (p_the P0 x) s) as [[|[]]| | |].
  Qed.

  Lemma logged_back s m h h' : later s m ->
    rewind (RewindSequence := rewind_logged) (m, h) (anchor (RewindSequence := rewind_logged) (s, h')) = Ret (s, h ++ [Undid]).
  Proof. intros L. cbn. now rewrite (back_ok _ _ L). Qed.

  Ltac outcome H := let o := fresh "o" in let OC := fresh "OC" in let G := fresh "G" in
    destruct (ok _ _ _ _ H) as (o & OC & G); destruct o as [?t rest| |]; cbn in OC;
    [destruct OC as (?m & OC & ?L & ?D); try discriminate OC; injection OC as <- <-; subst rest
    |destruct OC as (?m & OC & ?L); try discriminate OC; injection OC as -> <-
    |destruct OC as (?m & OC & ?L); try discriminate OC; injection OC as -> <-].

  Lemma loop_record fuel a :
    (forall s h, records (callsd rules fuel a (cont s)) h (run fuel a s) (runs fuel a (s, h))) ->
    forall k buf s h, records (callsd rules fuel (GRep a) (cont s)) h
      (repeat_loop k (parser_on P rules fuel a) buf s) (repeat_loop k (parser_on (ticking_prims P) rules fuel a) buf (s, h)).
  Proof.
    intros IH. induction k as [|k IHk]; intros buf s h; [reflexivity|]. cbn [repeat_loop].
    specialize (IH s h). destruct (run fuel a s) as [[x m|e m]| | |] eqn:R; cbn [records] in IH;
      [destruct IH as (cs & C & ->)|destruct IH as (cs & C & ->)|rewrite IH; reflexivity..]; cbn [bind logged].
    - outcome R. specialize (IHk (buf ++ [x]) m (h ++ cs)).
      destruct (repeat_loop k (parser_on P rules fuel a) (buf ++ [x]) m) as [r| | |]; cbn [records] in *; auto.
      destruct IHk as (ks & K & ->). exists (cs ++ ks). rewrite app_assoc. split; [|reflexivity]. eapply cd_rep_more; eauto.
    - outcome R; cbn [should_terminate pe_gerr].
      + rewrite (back_ok _ _ L), (logged_back _ _ _ _ L). cbn [bind records done]. exists (cs ++ [Undid]).
        rewrite app_assoc. split; [|reflexivity]. now apply cd_rep_end.
      + cbn [records fail]. exists cs. split; [|reflexivity]. now apply cd_rep_cut.
  Qed.

  Theorem run_record fuel : forall e s h, records (callsd rules fuel e (cont s)) h (run fuel e s) (runs fuel e (s, h)).
  Proof.
    induction fuel as [fuel IHf] using lt_wf_ind.
    induction e as [|x|p|a IHa b IHb|a IHa b IHb|a IHa|a IHa|a IHa|i]; intros s h.
    - rewrite !on_any. cbn [p_any ticking_prims ticks parse ticking]. destruct (parse (p_any P) s) as [[]| | |]; cbn; auto;
        exists [Tried]; split; auto; constructor.
    - rewrite !on_the. cbn [p_the ticking_prims ticks parse ticking]. destruct (parse (p_the P x) s) as [[]| | |]; cbn; auto;
        exists [Tried]; split; auto; constructor.
    - rewrite !on_atom. cbn [p_atom ticking_prims ticks parse ticking]. destruct (parse (p_atom P p) s) as [[]| | |]; cbn; auto;
        exists [Tried]; split; auto; constructor.
    - rewrite !on_join. specialize (IHa s h). destruct (run fuel a s) as [[x m|e m]| | |] eqn:R; cbn [records] in IHa;
        [destruct IHa as (cs & C & ->)|destruct IHa as (cs & C & ->)|rewrite IHa; reflexivity..]; cbn [bind logged].
      + outcome R. specialize (IHb m (h ++ cs)). destruct (run fuel b m) as [r| | |]; cbn [records bind] in *;
          [destruct IHb as (ks & K & ->)|rewrite IHb; reflexivity..].
        cbn [bind]. destruct r; cbn [logged records]; exists (cs ++ ks); rewrite app_assoc; (split; [eapply cd_join; eauto|reflexivity]).
      + cbn [records]. exists cs. split; [|reflexivity]. outcome R; eapply cd_join_not; eauto; discriminate.
    - rewrite !on_or. specialize (IHa s h). destruct (run fuel a s) as [[x m|e m]| | |] eqn:R; cbn [records] in IHa;
        [destruct IHa as (cs & C & ->)|destruct IHa as (cs & C & ->)|rewrite IHa; reflexivity..]; cbn [bind logged].
      + cbn [records]. exists cs. split; [|reflexivity]. outcome R. eapply cd_or; eauto; discriminate.
      + outcome R.
        * rewrite (back_ok _ _ L), (logged_back _ _ _ _ L). cbn [bind]. specialize (IHb s ((h ++ cs) ++ [Undid])).
          destruct (run fuel b s) as [r| | |]; cbn [records bind] in *; [destruct IHb as (ks & K & ->)|rewrite IHb; reflexivity..].
          cbn [bind]. assert (X : ((h ++ cs) ++ [Undid]) ++ ks = h ++ (cs ++ Undid :: ks)) by now rewrite <- !app_assoc.
          destruct r; cbn [logged records]; rewrite X; exists (cs ++ Undid :: ks); (split; [now apply cd_or_next|reflexivity]).
        * cbn [records]. exists cs. split; [|reflexivity]. eapply cd_or; eauto; discriminate.
    - rewrite !on_opt. specialize (IHa s h). destruct (run fuel a s) as [[x m|e m]| | |] eqn:R; cbn [records] in IHa;
        [destruct IHa as (cs & C & ->)|destruct IHa as (cs & C & ->)|rewrite IHa; reflexivity..]; cbn [bind logged].
      + cbn [records]. exists cs. split; [|reflexivity]. outcome R. eapply cd_opt; eauto; discriminate.
      + outcome R.
        * rewrite (back_ok _ _ L), (logged_back _ _ _ _ L). cbn [bind records]. exists (cs ++ [Undid]). rewrite app_assoc.
          split; [now apply cd_opt_not|reflexivity].
        * cbn [records]. exists cs. split; [|reflexivity]. eapply cd_opt; eauto; discriminate.
    - rewrite !on_rep. pose proof (loop_record fuel a IHa fuel [] s h) as X.
      destruct (repeat_loop fuel (parser_on P rules fuel a) [] s) as [[[] ?|? ?]| | |]; cbn [records bind] in *;
        [destruct X as (cs & C & ->)|destruct X as (cs & C & ->)|rewrite X; reflexivity..]; cbn; exists cs; auto.
    - rewrite !on_cut. specialize (IHa s h). destruct (run fuel a s) as [[]| | |]; cbn [records bind] in *;
        [destruct IHa as (cs & C & ->)|destruct IHa as (cs & C & ->)|rewrite IHa; reflexivity..]; cbn; exists cs;
        (split; [now constructor|reflexivity]).
    - rewrite !on_ref. destruct fuel as [|fuel]; [reflexivity|]. specialize (IHf fuel (Nat.lt_succ_diag_r _) (rules i) s h).
      destruct (run fuel (rules i) s) as [r| | |]; cbn [records] in *; auto. destruct IHf as (cs & C & ->). exists cs.
      split; [now constructor|reflexivity].
  Qed.
End Record.

(** ** Bounds *)
Section Bounds.
  Context {T : Type} (eqb : T -> T -> bool) (eqb_ok : decides_eq eqb) (rules : nat -> gexp T).

  Lemma calls_answered e l h : calls rules e l h -> exists o, peg rules e l o.
  Proof.
    induction 1; repeat match goal with X : exists o, peg rules _ _ o |- _ => destruct X as (? & ?) end.
    - destruct l; eexists; constructor.
    - destruct l as [|y l]; [eexists; apply pg_the_not; discriminate|]. destruct (eqb y x) eqn:E.
      + apply eqb_ok in E. subst y. eexists. constructor.
      + eexists. apply pg_the_not. intros l' F. injection F as -> _. rewrite (proj2 (eqb_ok x x) eq_refl) in E. discriminate.
    - destruct (list_eqb eqb (firstn (length p) l) p) eqn:E.
      + apply (list_eqb_ok eqb eqb_ok) in E. exists (PSucc TUnit (skipn (length p) l)).
        rewrite <- (firstn_skipn (length p) l) at 1. rewrite E. constructor.
      + eexists. apply pg_atom_not. intros r ->. rewrite firstn_app, Nat.sub_diag, firstn_all in E. cbn in E. rewrite app_nil_r in E.
        rewrite (proj2 (list_eqb_ok eqb eqb_ok p p) eq_refl) in E. discriminate.
    - destruct x as [? ?| |]; eexists; [eapply pg_join|eapply pg_join_fail2|eapply pg_join_cut2]; eauto.
    - destruct o as [? ?| |]; [exfalso; now eapply H0| |]; eexists; [eapply pg_join_fail1|eapply pg_join_cut1]; eauto.
    - destruct o as [? ?| |]; [|contradiction|]; eexists; [eapply pg_or_first|eapply pg_or_cut]; eauto.
    - destruct x as [? ?| |]; eexists; [eapply pg_or_last|eapply pg_or_fail|eapply pg_or_cut2]; eauto.
    - destruct o as [? ?| |]; [|contradiction|]; eexists; [eapply pg_opt_some|eapply pg_opt_cut]; eauto.
    - eexists. now apply pg_opt_none.
    - eexists. now apply pg_rep_end.
    - eexists. now apply pg_rep_cut.
    - destruct x as [? ?| |].
      + match goal with X : peg rules (GRep a) m _ |- _ => inversion X; subst end; eexists; eapply pg_rep_more; eauto.
      + match goal with X : peg rules (GRep a) m _ |- _ => inversion X end.
      + eexists. eapply pg_rep_cut2; eauto.
    - destruct x as [? ?| |]; eexists; [eapply pg_cut_ok|eapply pg_cut_fail|eapply pg_cut_cut]; eauto.
    - eexists. constructor. eauto.
  Qed.

  Lemma rep_reads a l t m h : peg rules a l (PSucc t m) -> calls rules (GRep a) m h -> length m < length l.
  Proof.
    intros P C. pose proof (peg_sfx rules _ _ _ P _ _ eq_refl) as X. pose proof (sfx_le _ _ X).
    destruct (Nat.eq_dec (length m) (length l)) as [E|E]; [|lia]. exfalso.
    assert (m = l) as -> by (apply (sfx_eq m l l); auto; apply sfx_refl).
    destruct (calls_answered _ _ _ C) as (o & Q). apply (answered_not_round rules _ _ _ Q).
    exists (GRep a, l). split; [constructor|]. apply t_step. eapply nd_rep_next. exact P.
  Qed.

  (** [x] for each call of a parser function, repetitions over at most [N] items. *)
  Fixpoint bnd (x N : nat) (e : gexp T) : nat :=
    match e with
    | GAny | GThe _ | GAtom _ => 1
    | GJoin a b => bnd x N a + bnd x N b
    | GOr a b => bnd x N a + 1 + bnd x N b
    | GOpt a => bnd x N a + 1
    | GRep a => (N + 1) * bnd x N a + 1
    | GCut a => bnd x N a
    | GRef _ => x
    end.

  Lemma size_pos (e : gexp T) : 1 <= size e.
  Proof. induction e; cbn; lia. Qed.
  Lemma pow_mono N k k' : k <= k' -> (N + 2) ^ k <= (N + 2) ^ k'.
  Proof. intros. apply Nat.pow_le_mono_r; lia. Qed.
  Lemma pow_pos N k : 1 <= (N + 2) ^ k.
  Proof. pose proof (Nat.pow_nonzero (N + 2) k). lia. Qed.
  Lemma bnd_size x N e : 1 <= x -> bnd x N e <= size e * (N + 2) ^ nesting e * x.
  Proof.
    intros X. induction e as [|y|p|a IHa b IHb|a IHa b IHb|a IHa|a IHa|a IHa|i]; cbn [bnd size nesting]; try (cbn; nia).
    - pose proof (pow_mono N (nesting a) _ (Nat.le_max_l (nesting a) (nesting b))).
      pose proof (pow_mono N (nesting b) _ (Nat.le_max_r (nesting a) (nesting b))).
      set (p := (N + 2) ^ Nat.max (nesting a) (nesting b)) in *.
      assert (size a * (N + 2) ^ nesting a * x <= size a * p * x) by (apply Nat.mul_le_mono_r, Nat.mul_le_mono_l; auto).
      assert (size b * (N + 2) ^ nesting b * x <= size b * p * x) by (apply Nat.mul_le_mono_r, Nat.mul_le_mono_l; auto).
      nia.
    - pose proof (pow_mono N (nesting a) _ (Nat.le_max_l (nesting a) (nesting b))).
      pose proof (pow_mono N (nesting b) _ (Nat.le_max_r (nesting a) (nesting b))).
      pose proof (pow_pos N (Nat.max (nesting a) (nesting b))).
      set (p := (N + 2) ^ Nat.max (nesting a) (nesting b)) in *.
      assert (size a * (N + 2) ^ nesting a * x <= size a * p * x) by (apply Nat.mul_le_mono_r, Nat.mul_le_mono_l; auto).
      assert (size b * (N + 2) ^ nesting b * x <= size b * p * x) by (apply Nat.mul_le_mono_r, Nat.mul_le_mono_l; auto).
      assert (1 <= p * x) by nia. nia.
    - pose proof (pow_pos N (nesting a)). set (p := (N + 2) ^ nesting a) in *. assert (1 <= p * x) by nia. nia.
    - pose proof (pow_pos N (nesting a)). cbn [Nat.pow]. set (p := (N + 2) ^ nesting a) in *. assert (1 <= p * x) by nia.
      assert ((N + 1) * bnd x N a <= (N + 1) * (size a * p * x)) by (apply Nat.mul_le_mono_l; auto). nia.
  Qed.

  Section Deep.
    Context (n c k N : nat).
    Hypothesis fin : forall i, i < n -> uses n (rules i).
    Hypothesis small : forall i, i < n -> size (rules i) <= c /\ nesting (rules i) <= k.
    Hypothesis c_pos : 1 <= c.
    Let D := c * (N + 2) ^ k.
    Lemma D_pos d : 1 <= D ^ d.
    Proof. pose proof (pow_pos N k). assert (D <> 0) by (unfold D; nia). pose proof (Nat.pow_nonzero D d). lia. Qed.
    Lemma rule_bnd d i : i < n -> bnd (D ^ d) N (rules i) <= D ^ Datatypes.S d.
    Proof.
      intros L. destruct (small i L) as (A & B). pose proof (bnd_size (D ^ d) N (rules i) (D_pos d)) as X.
      cbn [Nat.pow]. eapply Nat.le_trans; [exact X|]. apply Nat.mul_le_mono_r. unfold D.
      apply Nat.mul_le_mono; auto. now apply pow_mono.
    Qed.

    Lemma callsd_bnd d e l h : callsd rules d e l h -> uses n e -> length l <= N ->
      length h <= bnd (D ^ d) N e /\ forall a, e = GRep a -> length h <= Datatypes.S (length l) * bnd (D ^ d) N a + 1.
    Proof.
      induction 1; intros U L; cbn [bnd uses] in *; rewrite ?app_length; cbn [length].
      - split; [lia|discriminate].
      - split; [lia|discriminate].
      - split; [lia|discriminate].
      - destruct U as (U1 & U2). pose proof (sfx_le _ _ (peg_sfx rules _ _ _ H _ _ eq_refl)).
        destruct (IHcallsd1 U1 L) as (A & _). destruct (IHcallsd2 U2) as (B & _); [lia|]. split; [lia|discriminate].
      - destruct U as (U1 & U2). destruct (IHcallsd U1 L) as (A & _). split; [lia|discriminate].
      - destruct U as (U1 & U2). destruct (IHcallsd U1 L) as (A & _). split; [lia|discriminate].
      - destruct U as (U1 & U2). destruct (IHcallsd1 U1 L) as (A & _). destruct (IHcallsd2 U2 L) as (B & _). split; [lia|discriminate].
      - destruct (IHcallsd U L) as (A & _). split; [lia|discriminate].
      - destruct (IHcallsd U L) as (A & _). split; [lia|discriminate].
      - destruct (IHcallsd U L) as (A & _). split; [nia|]. intros a' E. injection E as <-. nia.
      - destruct (IHcallsd U L) as (A & _). split; [nia|]. intros a' E. injection E as <-. nia.
      - pose proof (rep_reads _ _ _ _ _ H (callsd_calls _ _ _ _ _ H1)) as R.
        destruct (IHcallsd1 U L) as (A & _). destruct (IHcallsd2 U) as (_ & B); [lia|]. specialize (B a eq_refl).
        set (w := bnd (D ^ d) N a) in *. split; [nia|]. intros a' E. injection E as <-. fold w. nia.
      - destruct (IHcallsd U L) as (A & _). split; [lia|discriminate].
      - split; [|discriminate]. destruct (IHcallsd (fin i U) L) as (A & _). pose proof (rule_bnd d i U). lia.
    Qed.
  End Deep.

  #[local] Hint Constructors callsd : core.
  Lemma flat_depth e l h : calls rules e l h -> rule_free e -> callsd rules 0 e l h.
  Proof.
    induction 1; cbn; intros F; try contradiction; try destruct F as (F1 & F2); eauto.
  Qed.
End Bounds.

(** ** Grammars that commit *)
Section Linear.
  Context {T : Type} (eqb : T -> T -> bool) (eqb_ok : decides_eq eqb) (rules : nat -> gexp T).
  Context (n : nat) (null sure quick : nat -> bool) (rank : nat -> nat) (R C K : nat).
  Hypothesis fin : forall i, i < n -> uses n (rules i).
  Hypothesis ord : orderly rules null rank n.
  Hypothesis com : committed rules sure quick n.
  Hypothesis ranks : forall i, i < n -> rank i < R.
  Hypothesis C_pos : 1 <= C.
  Hypothesis C_ok : forall i x, i < n -> 1 <= x -> bnd x 0 (rules i) <= C * x.
  Notation w := (bnd (T := T) (C ^ R) 1).
  Hypothesis K_ok : forall i, i < n -> w (rules i) <= K.
  Notation cf := (called_first (T := T) null rank).
  Notation lim r := ((R - r + 1) * K).
  Notation beta := ((R + 1) * K + 1).
  Notation at_once := (fails_at_once (T := T) sure quick).

  Lemma cpow_pos r : 1 <= C ^ r.
  Proof. pose proof (Nat.pow_nonzero C r). lia. Qed.
  Lemma cpow_mono r r' : r <= r' -> C ^ r <= C ^ r'.
  Proof. intros. apply Nat.pow_le_mono_r; lia. Qed.
  Lemma bnd_mono x x' N N' (e : gexp T) : x <= x' -> N <= N' -> bnd x N e <= bnd x' N' e.
  Proof.
    intros X M. induction e; cbn [bnd]; try lia. apply Nat.add_le_mono_r. apply Nat.mul_le_mono; lia.
  Qed.
  Lemma cf_le e : uses n e -> cf e <= R.
  Proof.
    induction e; cbn; intros U; try lia.
    - destruct U as (U1 & U2). specialize (IHe1 U1). specialize (IHe2 U2). destruct (may_be_empty null e1); lia.
    - destruct U as (U1 & U2). specialize (IHe1 U1). specialize (IHe2 U2). lia.
    - now apply IHe.
    - now apply IHe.
    - now apply IHe.
    - specialize (ranks _ U). lia.
  Qed.

  Lemma never_fails_ok e l o : peg rules e l o -> uses n e -> never_fails sure e = true -> o <> PFail.
  Proof.
    induction 1; cbn; intros U NF; try discriminate; try (destruct U as (U1 & U2)).
    - apply andb_true_iff in NF. destruct NF as (A & B). intros _. now apply (IHpeg U1 A).
    - apply andb_true_iff in NF. destruct NF as (A & B). intros _. now apply (IHpeg2 U2 B).
    - apply orb_true_iff in NF. intros _. destruct NF as [A|B]; [now apply (IHpeg1 U1 A)|now apply (IHpeg2 U2 B)].
    - apply IHpeg; [now apply fin|]. now apply (com i U).
  Qed.

  (** Nothing was read. *)
  Definition quiet (e : gexp T) (l : list T) (o : poutcome T) : Prop :=
    match o with PSucc _ m => length m = length l | PFail => at_once e = true | PCut => False end.
  Definition cons (l : list T) (o : poutcome T) : nat :=
    match o with PSucc _ m => length l - length m | _ => length l + 1 end.
  Lemma quiet_dec e l o : {quiet e l o} + {~ quiet e l o}.
  Proof. destruct o; cbn; [apply Nat.eq_dec|destruct (at_once e); auto|auto]. Qed.

  Ltac clash := repeat match goal with
    | A : peg rules ?a ?l ?o, B : peg rules ?a ?l ?o' |- _ =>
        lazymatch o with
        | o' => fail
        | _ => let E := fresh in pose proof (peg_det rules _ _ _ A _ B) as E;
               first [discriminate E | injection E; clear E; intros; subst | subst o | subst o']
        end
    end.
  Lemma or_parts a b : commits sure quick (GOr a b) = true -> at_once a = true /\ commits sure quick a = true /\ commits sure quick b = true.
  Proof. cbn. intros H. apply andb_true_iff in H. destruct H as (H & ?). apply andb_true_iff in H. tauto. Qed.

  Lemma quiet_bnd e l h : calls rules e l h -> forall o, peg rules e l o -> quiet e l o -> uses n e -> commits sure quick e = true ->
    forall r, cf e <= r -> length h <= bnd (C ^ r) 0 e.
  Proof.
    induction 1; intros o' P Q U CM r CF; cbn [uses called_first bnd] in *; rewrite ?app_length; cbn [length].
    - lia.
    - lia.
    - lia.
    - destruct U as (U1 & U2). apply andb_true_iff in CM. destruct CM as (CA & CB).
      assert (X : forall ob, peg rules b m ob -> quiet b m ob -> length m = length l -> length h + length k <= bnd (C ^ r) 0 a + bnd (C ^ r) 0 b).
      { intros ob Pb Qb E. rewrite (nonempty_reads rules n null rank fin ord _ _ _ H U1 _ _ eq_refl E) in CF.
        specialize (IHcalls1 _ H E U1 CA r ltac:(lia)). specialize (IHcalls2 _ Pb Qb U2 CB r ltac:(lia)). lia. }
      pose proof (sfx_le _ _ (peg_sfx rules _ _ _ H _ _ eq_refl)).
      inversion P; subst; clash; cbn [quiet] in Q; try (exfalso; assumption).
      + match goal with Y : peg rules b _ _ |- _ => pose proof (sfx_le _ _ (peg_sfx rules _ _ _ Y _ _ eq_refl)); apply (X _ Y); cbn; lia end.
      + cbn in Q. apply andb_true_iff in Q. destruct Q as (_ & NF). exfalso.
        match goal with Y : peg rules b _ _ |- _ => now apply (never_fails_ok _ _ _ Y U2 NF) end.
    - destruct U as (U1 & U2). apply andb_true_iff in CM. destruct CM as (CA & CB).
      assert (Q' : quiet a l o).
      { inversion P; subst; clash; try (exact (False_ind _ (H0 _ _ eq_refl))); cbn in Q |- *; auto. apply andb_true_iff in Q. tauto. }
      specialize (IHcalls _ H Q' U1 CA r ltac:(lia)). lia.
    - destruct U as (U1 & U2). apply or_parts in CM. destruct CM as (CO & CA & CB).
      assert (Q' : quiet a l o) by (inversion P; subst; clash; cbn in Q |- *; auto; contradiction).
      specialize (IHcalls _ H Q' U1 CA r ltac:(lia)). lia.
    - destruct U as (U1 & U2). apply or_parts in CM. destruct CM as (CO & CA & CB).
      specialize (IHcalls1 _ H CO U1 CA r ltac:(lia)).
      assert (exists ob, peg rules b l ob /\ quiet b l ob) as (ob & Pb & Qb).
      { inversion P; subst; clash; cbn in Q |- *; try (exfalso; assumption); eexists; (split; [eassumption|]); cbn; auto. }
      specialize (IHcalls2 _ Pb Qb U2 CB r ltac:(lia)). lia.
    - apply andb_true_iff in CM. destruct CM as (CO & CA).
      assert (Q' : quiet a l o) by (inversion P; subst; clash; cbn in Q |- *; auto; contradiction).
      specialize (IHcalls _ H Q' U CA r ltac:(lia)). lia.
    - apply andb_true_iff in CM. destruct CM as (CO & CA). specialize (IHcalls _ H CO U CA r ltac:(lia)). lia.
    - apply andb_true_iff in CM. destruct CM as (CO & CA). specialize (IHcalls _ H CO U CA r ltac:(lia)). lia.
    - exfalso. inversion P; subst; clash; cbn in Q; auto.
    - exfalso. pose proof (rep_reads eqb eqb_ok rules _ _ _ _ _ H H1) as LT.
      inversion P; subst; clash; cbn in Q; auto.
      match goal with Y : peg rules (GRep a) _ _ |- _ => pose proof (sfx_le _ _ (peg_sfx rules _ _ _ Y _ _ eq_refl)) end. lia.
    - cbn in CM. inversion P; subst; cbn in Q; try contradiction.
      match goal with Y : peg rules a l _ |- _ => now apply (IHcalls _ Y) end.
    - inversion P; subst. destruct (com i U) as (_ & CQ & CC). destruct (ord i U) as (_ & CR & _).
      assert (Q' : quiet (rules i) l o') by (destruct o'; cbn in Q |- *; auto).
      specialize (IHcalls _ H1 Q' (fin i U) CC (rank i) CR). pose proof (C_ok i (C ^ rank i) U (cpow_pos _)).
      pose proof (cpow_mono (Datatypes.S (rank i)) r CF) as Y. cbn [Nat.pow] in Y. lia.
  Qed.

  Lemma quiet_w e l h o : calls rules e l h -> peg rules e l o -> quiet e l o -> uses n e -> commits sure quick e = true ->
    length h <= bnd (C ^ R) 0 e /\ length h <= w e.
  Proof.
    intros H P Q U CM. pose proof (quiet_bnd e l h H o P Q U CM R (cf_le e U)).
    pose proof (bnd_mono (C ^ R) (C ^ R) 0 1 e (le_n _) ltac:(lia)). lia.
  Qed.
  Lemma lim_beta r : lim r < beta.
  Proof. assert (R - r + 1 <= R + 1) by lia. nia. Qed.
  Lemma lim_last : K <= lim R.
  Proof. nia. Qed.
  Lemma lim_up r i : rank i < r -> r <= R -> lim r + K <= lim (rank i).
  Proof. intros. assert (R - rank i + 1 >= R - r + 1 + 1) by lia. nia. Qed.

  Lemma noisy_bnd e l h : calls rules e l h -> forall o, peg rules e l o -> ~ quiet e l o -> uses n e -> commits sure quick e = true ->
    w e <= K -> forall d r, cf e <= r -> r <= R -> d + w e <= lim r -> length h + d <= beta * cons l o.
  Proof.
    pose proof lim_last as LR.
    assert (ONE : forall x d r l o, d + x <= lim r -> 1 <= cons l o -> x + d <= beta * cons l o).
    { intros x d r l0 o A B. pose proof (lim_beta r). nia. }
    induction 1; intros o' P Q U CM WK d r CF RR D; cbn [uses called_first bnd] in *; rewrite ?app_length; cbn [length].
    - apply (ONE 1 d r); auto. inversion P; subst; cbn [cons length] in *; [lia|now destruct Q].
    - apply (ONE 1 d r); auto. inversion P; subst; cbn [cons length] in *; [lia|now destruct Q].
    - apply (ONE 1 d r); auto. inversion P; subst; cbn [cons] in *; [|now destruct Q].
      destruct p; [now destruct Q|]. rewrite app_length. cbn [length]. lia.
    - destruct U as (U1 & U2). apply andb_true_iff in CM. destruct CM as (CA & CB).
      pose proof (sfx_le _ _ (peg_sfx rules _ _ _ H _ _ eq_refl)).
      assert (exists ob, peg rules b m ob /\ match ob with PSucc _ q => exists t', o' = PSucc t' q | _ => o' = ob end) as (ob & Pb & Eo).
      { inversion P; subst; clash; eexists; (split; [eassumption|]); cbn; eauto. }
      assert (CO : length l - length m + cons m ob = cons l o').
      { destruct ob as [? q| |]; [destruct Eo as (? & ->)|subst o'..]; cbn; try lia.
        pose proof (sfx_le _ _ (peg_sfx rules _ _ _ Pb _ _ eq_refl)). lia. }
      destruct (Nat.eq_dec (length m) (length l)) as [E|E].
      + rewrite (nonempty_reads rules n null rank fin ord _ _ _ H U1 _ _ eq_refl E) in CF.
        destruct (quiet_w _ _ _ _ H0 H E U1 CA) as (_ & QA).
        destruct (quiet_dec b m ob) as [Qb|Qb].
        * destruct (quiet_w _ _ _ _ H1 Pb Qb U2 CB) as (_ & QB).
          enough (w a + w b + d <= beta * cons l o') by lia. apply (ONE _ d r); [lia|].
          destruct o' as [? q| |]; cbn; try lia. cbn in Q. destruct ob; try discriminate Eo. destruct Eo as (? & Eo). injection Eo as -> ->.
          cbn in Qb. lia.
        * specialize (IHcalls2 _ Pb Qb U2 CB ltac:(lia) (d + w a) r ltac:(lia) RR ltac:(lia)).
          replace (cons l o') with (cons m ob) by lia. lia.
      + assert (NA : ~ quiet a l (PSucc t m)) by exact E.
        destruct (quiet_dec b m ob) as [Qb|Qb].
        * destruct (quiet_w _ _ _ _ H1 Pb Qb U2 CB) as (_ & QB).
          specialize (IHcalls1 _ H NA U1 CA ltac:(lia) (d + w b) r ltac:(lia) RR ltac:(lia)). cbn [cons] in IHcalls1.
          assert (beta * (length l - length m) <= beta * cons l o') by (apply Nat.mul_le_mono_l; lia). lia.
        * specialize (IHcalls1 _ H NA U1 CA ltac:(lia) d r ltac:(lia) RR ltac:(lia)). cbn [cons] in IHcalls1.
          specialize (IHcalls2 _ Pb Qb U2 CB ltac:(lia) 0 R (cf_le _ U2) (le_n _) ltac:(lia)).
          rewrite <- CO, Nat.mul_add_distr_l. lia.
    - destruct U as (U1 & U2). apply andb_true_iff in CM. destruct CM as (CA & CB).
      assert (CO : cons l o' = cons l o /\ 1 <= cons l o).
      { inversion P; subst; clash; try (exact (False_ind _ (H0 _ _ eq_refl))); cbn; lia. }
      destruct CO as (-> & C1). destruct (quiet_dec a l o) as [Qa|Qa].
      + destruct (quiet_w _ _ _ _ H1 H Qa U1 CA) as (_ & QA). enough (w a + d <= beta * cons l o) by lia. apply (ONE _ d r); auto. lia.
      + apply (IHcalls o H Qa U1 CA ltac:(lia) d r); lia.
    - destruct U as (U1 & U2). apply or_parts in CM. destruct CM as (CO & CA & CB).
      assert (X : cons l o' = cons l o /\ ~ quiet a l o).
      { inversion P; subst; clash; cbn in Q |- *; auto; contradiction. }
      destruct X as (-> & Qa). apply (IHcalls o H Qa U1 CA ltac:(lia) d r); lia.
    - destruct U as (U1 & U2). apply or_parts in CM. destruct CM as (CO & CA & CB).
      destruct (quiet_w _ _ _ _ H0 H CO U1 CA) as (_ & QA).
      assert (exists ob, peg rules b l ob /\ ~ quiet b l ob /\ cons l o' = cons l ob) as (ob & Pb & Qb & ->).
      { inversion P; subst; clash; eexists; (split; [eassumption|]); cbn in Q |- *; auto. }
      specialize (IHcalls2 _ Pb Qb U2 CB ltac:(lia) (d + w a + 1) r ltac:(lia) RR ltac:(lia)). lia.
    - apply andb_true_iff in CM. destruct CM as (CO & CA).
      assert (X : cons l o' = cons l o /\ ~ quiet a l o) by (inversion P; subst; clash; cbn in Q |- *; auto; contradiction).
      destruct X as (-> & Qa). apply (IHcalls o H Qa U CA ltac:(lia) d r); lia.
    - exfalso. apply Q. inversion P; subst; clash; reflexivity.
    - exfalso. apply Q. inversion P; subst; clash; reflexivity.
    - apply andb_true_iff in CM. destruct CM as (CO & CA).
      assert (X : cons l o' = cons l (@PCut T)) by (inversion P; subst; clash; reflexivity). rewrite X.
      apply (IHcalls PCut H (fun q => q) U CA ltac:(lia) d r); lia.
    - pose proof CM as CM0. apply andb_true_iff in CM. destruct CM as (CO & CA). pose proof (rep_reads eqb eqb_ok rules _ _ _ _ _ H H1) as LT.
      assert (NA : ~ quiet a l (PSucc t m)) by (cbn; lia).
      assert (exists ob, peg rules (GRep a) m ob /\ length l - length m + cons m ob = cons l o') as (ob & Pb & EC).
      { inversion P; subst; clash; eexists; (split; [eassumption|]); cbn; try lia.
        match goal with Y : peg rules (GRep a) _ _ |- _ => pose proof (sfx_le _ _ (peg_sfx rules _ _ _ Y _ _ eq_refl)) end. lia. }
      rewrite <- EC, Nat.mul_add_distr_l. destruct (quiet_dec (GRep a) m ob) as [Qb|Qb].
      + destruct (quiet_w _ _ _ _ H1 Pb Qb U CM0) as (QB & _). cbn [bnd] in QB.
        pose proof (bnd_mono (C ^ R) (C ^ R) 0 1 a (le_n _) ltac:(lia)).
        specialize (IHcalls1 _ H NA U CA ltac:(lia) (d + w a + 1) r ltac:(lia) RR ltac:(lia)). cbn [cons] in IHcalls1. lia.
      + specialize (IHcalls1 _ H NA U CA ltac:(lia) d r ltac:(lia) RR ltac:(lia)). cbn [cons] in IHcalls1.
        specialize (IHcalls2 _ Pb Qb U CM0 WK 0 R (cf_le _ U) (le_n _) ltac:(lia)). lia.
    - cbn in CM. assert (exists oa, peg rules a l oa /\ cons l o' = cons l oa /\ (o' = oa \/ o' = PCut)) as (oa & Pa & X & Y).
      { inversion P; subst; eexists; (split; [eassumption|]); cbn; auto. }
      rewrite X. destruct (quiet_dec a l oa) as [Qa|Qa]; [|apply (IHcalls oa Pa Qa U CM WK d r); auto].
      destruct (quiet_w _ _ _ _ H Pa Qa U CM) as (_ & QA). enough (w a + d <= beta * cons l oa) by lia.
      apply (ONE _ d r); auto. rewrite <- X. destruct Y as [->| ->]; cbn; [|lia].
      destruct oa as [? q| |]; cbn in Q, Qa |- *; try lia.
    - inversion P; subst. destruct (com i U) as (_ & CQ & CC). destruct (ord i U) as (_ & CR & _). pose proof (K_ok i U) as KI.
      pose proof (lim_up r i CF RR) as UP. destruct (quiet_dec (rules i) l o') as [Qa|Qa].
      + destruct (quiet_w _ _ _ _ H H1 Qa (fin i U) CC) as (_ & QA). enough (w (rules i) + d <= beta * cons l o') by lia.
        apply (ONE _ d (rank i)); [lia|]. destruct o' as [? q| |]; cbn in Q, Qa |- *; try lia.
      + apply (IHcalls o' H1 Qa (fin i U) CC KI d (rank i)); auto; lia.
  Qed.

  Lemma linear_bnd e l h : uses n e -> commits sure quick e = true -> w e <= K -> calls rules e l h ->
    length h <= beta * (length l + 1).
  Proof.
    intros U CM WK H. destruct (calls_answered eqb eqb_ok rules e l h H) as (o & P). pose proof lim_last.
    destruct (quiet_dec e l o) as [Q|Q].
    - destruct (quiet_w e l h o H P Q U CM) as (_ & B). pose proof (lim_beta R). nia.
    - pose proof (noisy_bnd e l h H o P Q U CM WK 0 R (cf_le e U) (le_n _) ltac:(lia)) as B.
      assert (cons l o <= length l + 1) by (destruct o; cbn; lia).
      assert (beta * cons l o <= beta * (length l + 1)) by (apply Nat.mul_le_mono_l; auto). lia.
  Qed.
End Linear.
