(** * L_Layers: precedence climbing and the layered grammar agree. *)
From Verif Require Export S_Layers L_BinExpr.

(** ** Trees from layers *)
Section Trees.
  Context {T Op : Type} {OP : Operator Op}.
  Implicit Types (tr : tree T Op) (gs : list (Op * tree T Op)).

  (** Every operator of the tree binds at least as strongly as [k]. *)
  Fixpoint from_on (k : nat) tr : Prop :=
    match tr with Leaf _ => True | Node l o r => k <= precedence o /\ from_on k l /\ from_on k r end.

  Definition spread gs : list (Op * T) :=
    flat_map (fun '(o, tr) => (o, fst (reading tr)) :: snd (reading tr)) gs.

  Lemma from_on_root k tr c : from_on k tr -> root tr = Some c -> k <= precedence c.
  Proof. destruct tr; cbn; intros H E; [discriminate|]. injection E as <-. tauto. Qed.
  Lemma from_on_weaker k k' tr : k' <= k -> from_on k tr -> from_on k' tr.
  Proof. intros L. induction tr; cbn; auto. intros (A & B & C). split; [lia|auto]. Qed.

  Lemma from_on_reading k tr : (forall o t, In (o, t) (snd (reading tr)) -> k <= precedence o) -> from_on k tr.
  Proof.
    induction tr as [t|l IHl o r IHr]; cbn; auto. intros H.
    split; [apply (H o (fst (reading r))), in_or_app; right; now left|]. split.
    - apply IHl. intros o' t I. apply (H o' t), in_or_app. now left.
    - apply IHr. intros o' t I. apply (H o' t), in_or_app. right. now right.
  Qed.

  Definition fits_in (k : nat) (a : Associativity) gs : Prop :=
    Forall (fun '(o, tr) => precedence o = k /\ associativity o = a /\ respects tr /\ from_on (k + 1) tr) gs.

  Lemma left_tree k gs : fits_in k Left gs -> forall tr, respects tr ->
    (forall c, root tr = Some c -> k < precedence c \/ (precedence c = k /\ associativity c = Left)) ->
    respects (to_left Node tr gs) /\ reading (to_left Node tr gs) = (fst (reading tr), snd (reading tr) ++ spread gs).
  Proof.
    induction 1 as [|[o y] gs (A & B & C & D) H IH]; intros tr R Q; cbn.
    - rewrite app_nil_r. split; [auto|]. now destruct (reading tr).
    - destruct (IH (Node tr o y)) as (E1 & E2).
      + cbn. split; [auto|]. split; [auto|]. split.
        * intros c E. unfold left_ok. rewrite A. destruct (Q c E) as [|(F & G)]; auto.
        * intros c E. left. pose proof (from_on_root _ _ _ D E). lia.
      + cbn. intros c E. injection E as <-. auto.
      + split; [auto|]. rewrite E2. cbn. now rewrite <- app_assoc.
  Qed.

  Lemma right_tree k gs : fits_in k Right gs -> forall tr, respects tr -> from_on (k + 1) tr ->
    respects (to_right Node tr gs) /\ reading (to_right Node tr gs) = (fst (reading tr), snd (reading tr) ++ spread gs) /\
    (forall c, root (to_right Node tr gs) = Some c -> k <= precedence c).
  Proof.
    induction 1 as [|[o y] gs (A & B & C & D) H IH]; intros tr R Q; cbn.
    - rewrite app_nil_r. split; [auto|]. split; [now destruct (reading tr)|]. intros c E.
      pose proof (from_on_root _ _ _ Q E). lia.
    - destruct (IH y C D) as (E1 & E2 & E3). split; [|split].
      + split; [auto|]. split; [auto|]. split.
        * intros c E. left. pose proof (from_on_root _ _ _ Q E). lia.
        * intros c E. unfold right_ok. specialize (E3 c E). rewrite A, B. lia || (destruct (Nat.eq_dec k (precedence c)); [auto|left; lia]).
      + now rewrite E2.
      + intros c E. injection E as <-. lia.
  Qed.

  Lemma layer_tree k a gs tr : fits_in k a gs -> respects tr -> from_on (k + 1) tr ->
    respects (grouped Node a tr gs) /\ reading (grouped Node a tr gs) = (fst (reading tr), snd (reading tr) ++ spread gs).
  Proof.
    intros F R Q. destruct a; cbn.
    - apply (left_tree k); auto. intros c E. left. pose proof (from_on_root _ _ _ Q E). lia.
    - destruct (right_tree k gs F tr R Q) as (A & B & _). auto.
  Qed.

  Lemma grouped_build {Expr} (ft : T -> Expr) (fb : Expr -> Op -> Expr -> Expr) a tr gs :
    build ft fb (grouped Node a tr gs) = grouped fb a (build ft fb tr) (map (fun '(o, x) => (o, build ft fb x)) gs).
  Proof.
    destruct a; cbn; revert tr; induction gs as [|[o y] gs IH]; intros tr; cbn; auto.
    - now rewrite IH.
    - now rewrite IH.
  Qed.
End Trees.

Section Layers.
  Context {S A : Type} {RS : RewindSequence S A} {reach : S -> S -> Prop} (LR : lawful_rewind reach).
  Context {T TE Op OE Expr : Type} {PT : ParseError TE} {PO : ParseError OE} {OP : Operator Op}.
  Context (from_term : T -> Expr) (from_bin : Expr -> Op -> Expr -> Expr).
  Context (term : dparser S T TE) (op : dparser S Op OE) (side : nat -> Associativity) (levels : nat).
  Context (Hft : forward reach (parse term)) (Hfo : forward reach (parse op)).
  Context (Hlev : forall s o r, parse op s = Ret (Ok o r) -> precedence o < levels /\ associativity o = side (precedence o)).

  Notation tr_ := (tree T Op).
  Notation err := (Either (option OE) TE).
  Notation layer fuel := (layer from_term from_bin fuel term op side).
  Notation tm := (behaves (parse term)).

  (** The operators that bind at least as strongly as [k]. *)
  Inductive above (k : nat) : behaviour S Op (option OE) :=
  | ab_ok s o r : parse op s = Ret (Ok o r) -> k <= precedence o -> above k s (Succ o r)
  | ab_weaker s o r : parse op s = Ret (Ok o r) -> precedence o < k -> above k s (Missed None)
  | ab_miss s e : behaves (parse op) s (Missed e) -> above k s (Missed (Some e))
  | ab_cut s e : behaves (parse op) s (Cut e) -> above k s (Cut (Some e))
  | ab_crash s c : behaves (parse op) s (Crash c) -> above k s (Crash c).
  Notation pair_ k := (sequence (above k) tm).

  Lemma only_cases k s : forall v, behaves (parse (only op k)) s v ->
    match v with
    | Succ o r => parse op s = Ret (Ok o r) /\ precedence o = k
    | Missed None => exists o r, parse op s = Ret (Ok o r) /\ precedence o <> k
    | Missed (Some e) => behaves (parse op) s (Missed e)
    | Cut None => False
    | Cut (Some e) => behaves (parse op) s (Cut e)
    | Crash c => behaves (parse op) s (Crash c)
    end.
  Proof.
    intros v H. unfold behaves in H. cbn [parse only AndThen] in H. unfold and_then_parse in H.
    destruct (parse op s) as [[o r|e r]| | |] eqn:E; cbn [bind] in H.
    - destruct (Nat.eqb_spec (precedence o) k) as [F|F]; cbn in H.
      + destruct v as [o' r'|e|e|[]]; try (destruct H as (? & ? & ?)); try discriminate. injection H as <- <-. auto.
      + destruct v as [o' r'|e|e|[]]; try (destruct H as (X & ? & H)); try discriminate; injection H as <- <-; try discriminate.
        eauto.
    - cbn in H. destruct v as [o' r'|e'|e'|[]]; try (destruct H as (X & ? & H)); try discriminate; injection H as <- <-;
        cbn in X; split; eauto.
    - destruct v as [o' r'|e'|e'|[]]; try (destruct H as (X & ? & H)); try discriminate; auto.
    - destruct v as [o' r'|e'|e'|[]]; try (destruct H as (X & ? & H)); try discriminate; auto.
    - destruct v as [o' r'|e'|e'|[]]; try (destruct H as (X & ? & H)); try discriminate; auto.
  Qed.

  Lemma only_forward k : forward reach (parse (only op k)).
  Proof.
    intros s r. cbn [parse only AndThen]. unfold and_then_parse.
    destruct (parse op s) as [[o m|e m]| | |] eqn:E; cbn [bind]; try discriminate.
    - destruct (precedence o =? k); intros H; injection H as <-; exact (Hfo _ _ E).
    - intros H; injection H as <-; exact (Hfo _ _ E).
  Qed.

  Lemma layer_forward fuel d : forall k, forward reach (parse (layer fuel d k)).
  Proof.
    induction d as [|d IH]; intros k.
    - apply map_err_forward, map_forward. exact Hft.
    - apply map_err_forward, map_forward. cbn [parse Map]. apply (join_forward LR).
      + apply IH.
      + apply (repeat_forward LR). apply (join_forward LR); [apply only_forward|apply IH].
  Qed.

  (** ** What a layer does *)
  Definition stops (d k : nat) (r : S) : Prop := d = 0 \/ exists e, pair_ k r (Missed e).
  Inductive inner (d k : nat) : behaviour S tr_ err :=
  | in_ok s t m ps r tr : tm s (Succ t m) -> many (pair_ k) m ps r -> stops d k r ->
      reading tr = (t, ps) -> respects tr -> inner d k s (Succ tr r)
  | in_miss s e : tm s (Missed e) -> inner d k s (Missed (Last e))
  | in_cut s e : tm s (Cut e) -> inner d k s (Cut (Last e))
  | in_crash s c : tm s (Crash c) -> inner d k s (Crash c)
  | in_cut2 s t m ps r e : d <> 0 -> tm s (Succ t m) -> many (pair_ k) m ps r -> pair_ k r (Cut e) -> inner d k s (Cut e)
  | in_crash2 s t m ps r c : d <> 0 -> tm s (Succ t m) -> many (pair_ k) m ps r -> pair_ k r (Crash c) -> inner d k s (Crash c).

  Definition built (v : verdict S tr_ err) : verdict S Expr err :=
    match v with
    | Succ tr r => Succ (build from_term from_bin tr) r
    | Missed e => Missed e
    | Cut e => Cut e
    | Crash c => Crash c
    end.

  Lemma pair_weaker k s v m : pair_ (k + 1) s (Succ v m) -> pair_ k s (Succ v m).
  Proof.
    intros H. inversion H as [? o q t ? X Y| | | | | |]; subst. inversion X; subst.
    econstructor; [constructor; eauto; lia|auto].
  Qed.
  Lemma cut_weaker k s e : pair_ (k + 1) s (Cut e) -> pair_ k s (Cut e).
  Proof.
    intros H. inversion H as [| |? ? X| | |? ? ? ? X Y|]; subst; inversion X; subst.
    - apply sq_cut1. now constructor.
    - eapply sq_cut2; [constructor; eauto; lia|auto].
  Qed.
  Lemma crash_weaker k s c : pair_ (k + 1) s (Crash c) -> pair_ k s (Crash c).
  Proof.
    intros H. inversion H as [| | |? ? X| | |? ? ? ? X Y]; subst; inversion X; subst.
    - apply sq_crash1. now constructor.
    - eapply sq_crash2; [constructor; eauto; lia|auto].
  Qed.
  Lemma many_weaker k s ps r : many (pair_ (k + 1)) s ps r -> many (pair_ k) s ps r.
  Proof. induction 1; econstructor; eauto using pair_weaker. Qed.
  Lemma many_on k s ps r qs r' : many (pair_ k) s ps r -> many (pair_ k) r qs r' -> many (pair_ k) s (ps ++ qs) r'.
  Proof. induction 1; cbn; auto. intros H1. econstructor; eauto. Qed.
  Lemma many_above k s ps r : many (pair_ k) s ps r -> forall o t, In (o, t) ps -> k <= precedence o.
  Proof.
    induction 1 as [|s v m vs r X Y IH]; [intros o t []|]. intros o t [->|I]; [|eauto].
    inversion X as [? ? ? ? ? X1 X2| | | | | |]; subst. inversion X1; subst. auto.
  Qed.

  (** ** One layer upon another *)
  Section Step.
    Context (fuel d k : nat).
    Context (Hk : d = 0 -> levels <= k + 1).
    Context (IH : forall s w, behaves (parse (layer fuel d (k + 1))) s w -> w <> Crash CFuel ->
                    exists v, w = built v /\ inner d (k + 1) s v).
    Notation seq_ := (behaves (parse (Join (only op k) (layer fuel d (k + 1))))).

    Definition group (p : Op * tr_) : Op * Expr := let '(o, tr) := p in (o, build from_term from_bin tr).

    Lemma seq_succ s o x r : seq_ s (Succ (o, x) r) -> exists tr, x = build from_term from_bin tr /\
      precedence o = k /\ associativity o = side k /\ respects tr /\ from_on (k + 1) tr /\
      many (pair_ k) s ((o, fst (reading tr)) :: snd (reading tr)) r /\ stops d (k + 1) r.
    Proof.
      intros H. apply join_parse_spec in H. inversion H as [? ? m ? ? X Y| | | | | |]; subst.
      apply only_cases in X as (X & P). destruct (IH _ _ Y) as (v & E & V); [discriminate|].
      destruct v as [tr r'|e|e|c]; try discriminate E. injection E as -> <-.
      inversion V as [? t m' ps ? ? Z Z1 Z2 Z3 Z4| | | | |]; subst.
      exists tr. split; [auto|]. split; [auto|]. split; [apply Hlev in X; tauto|]. split; [auto|]. split.
      - apply from_on_reading. rewrite Z3. cbn. exact (many_above _ _ _ _ Z1).
      - rewrite Z3. cbn [fst snd]. split; [|auto]. econstructor; [|exact (many_weaker _ _ _ _ Z1)].
        econstructor; [constructor; eauto; lia|auto].
    Qed.

    Lemma many_succ s l r : many seq_ s l r -> stops d (k + 1) s -> exists gs, l = map group gs /\ fits_in k (side k) gs /\
      many (pair_ k) s (spread gs) r /\ stops d (k + 1) r.
    Proof.
      induction 1 as [|s [o x] m l r X Y IHm]; intros Z.
      - exists []. split; [auto|]. split; [constructor|]. split; [constructor|auto].
      - destruct (seq_succ _ _ _ _ X) as (tr & -> & P & Q & R & R' & M & St).
        destruct (IHm St) as (gs & -> & G & M' & St'). exists ((o, tr) :: gs). split; [auto|].
        split; [constructor; auto|]. split; [|auto]. cbn [spread flat_map].
        change ((o, fst (reading tr)) :: snd (reading tr) ++ spread gs) with (((o, fst (reading tr)) :: snd (reading tr)) ++ spread gs).
        eapply many_on; eauto.
    Qed.

    Lemma seq_missed r e : seq_ r (Missed e) -> stops d (k + 1) r -> exists e', pair_ k r (Missed e').
    Proof.
      intros H Z. apply join_parse_spec in H.
      assert (O : forall o q, parse op r = Ret (Ok o q) -> precedence o <> k -> exists e', pair_ k r (Missed e')).
      { intros o q E N. destruct (Nat.lt_ge_cases (precedence o) k) as [L|L].
        - exists (First None). apply sq_miss1. eapply ab_weaker; eauto.
        - destruct Z as [Z|(e' & Z)]; [destruct (Hlev _ _ _ E); specialize (Hk Z); lia|].
          inversion Z as [|? ? Z1| | |? ? ? ? Z1 Z2| |]; subst.
          + inversion Z1 as [|? ? ? Z3|? ? Z3| |]; subst; [assert (o0 = o) by congruence; subst; lia|].
            destruct Z3 as (_ & ? & Z3). congruence.
          + inversion Z1 as [? ? ? Z3| | | |]; subst. assert (x = o /\ m = q) as (-> & ->) by (split; congruence).
            exists (Last e0). eapply sq_miss2; [constructor; eauto|auto]. }
      inversion H as [|? e1 X| | |? o m e1 X Y| |]; subst.
      - apply only_cases in X. destruct e1 as [e1|].
        + exists (First (Some e1)). apply sq_miss1. now constructor.
        + destruct X as (o & q & X & N). eauto.
      - apply only_cases in X as (X & P). destruct (IH _ _ Y) as (v & E & V); [discriminate|].
        destruct v as [|e2| |]; try discriminate E. injection E as <-. inversion V; subst.
        eexists. eapply sq_miss2; [constructor; eauto; lia|eauto].
    Qed.

    Lemma seq_cut r e : seq_ r (Cut e) -> exists ps r', many (pair_ k) r ps r' /\
      pair_ k r' (Cut (match e with First e => First e | Last e => e end)).
    Proof.
      intros H. apply join_parse_spec in H. inversion H as [| |? e1 X| | |? o m e1 X Y|]; subst.
      - apply only_cases in X. destruct e1 as [e1|]; [|contradiction]. exists [], r. split; [constructor|]. apply sq_cut1. now constructor.
      - apply only_cases in X as (X & P). destruct (IH _ _ Y) as (v & E & V); [discriminate|].
        destruct v as [| |e2|]; try discriminate E. injection E as <-. inversion V; subst.
        + exists [], r. split; [constructor|]. eapply sq_cut2; [constructor; eauto; lia|auto].
        + exists ((o, t) :: ps), r0. split; [|apply cut_weaker; auto].
          econstructor; [econstructor; [constructor; eauto; lia|eauto]|]. now apply many_weaker.
    Qed.

    Lemma seq_crash r c : c <> CFuel -> seq_ r (Crash c) -> exists ps r', many (pair_ k) r ps r' /\ pair_ k r' (Crash c).
    Proof.
      intros N0 H. apply join_parse_spec in H. inversion H as [| | |? ? X| | |? o m ? X Y]; subst.
      - apply only_cases in X. exists [], r. split; [constructor|]. apply sq_crash1. now constructor.
      - apply only_cases in X as (X & P). destruct (IH _ _ Y) as (v & E & V); [congruence|].
        destruct v as [| | |c2]; try discriminate E. injection E as <-. inversion V; subst.
        + exists [], r. split; [constructor|]. eapply sq_crash2; [constructor; eauto; lia|auto].
        + exists ((o, t) :: ps), r0. split; [|apply crash_weaker; auto].
          econstructor; [econstructor; [constructor; eauto; lia|eauto]|]. now apply many_weaker.
    Qed.

    Lemma seq_forward : forward reach (parse (Join (only op k) (layer fuel d (k + 1)))).
    Proof. apply (join_forward LR); [apply only_forward|apply layer_forward]. Qed.

    (** What a run of the layer is made of. *)
    Lemma layer_cases s w : behaves (parse (layer fuel (Datatypes.S d) k)) s w ->
      match w with
      | Succ x r => exists x0 m l e, behaves (parse (layer fuel d (k + 1))) s (Succ x0 m) /\
          behaves (repeat_parse fuel (Join (only op k) (layer fuel d (k + 1)))) m (Succ (l, e) r) /\
          x = grouped from_bin (side k) x0 l
      | Missed e => behaves (parse (layer fuel d (k + 1))) s (Missed e) \/
          exists x0 m e', behaves (parse (layer fuel d (k + 1))) s (Succ x0 m) /\
            behaves (repeat_parse fuel (Join (only op k) (layer fuel d (k + 1)))) m (Missed e')
      | Cut e => behaves (parse (layer fuel d (k + 1))) s (Cut e) \/
          exists x0 m e', behaves (parse (layer fuel d (k + 1))) s (Succ x0 m) /\
            behaves (repeat_parse fuel (Join (only op k) (layer fuel d (k + 1)))) m (Cut e') /\
            e = match e' with First e => First e | Last e => e end
      | Crash c => behaves (parse (layer fuel d (k + 1))) s (Crash c) \/
          exists x0 m, behaves (parse (layer fuel d (k + 1))) s (Succ x0 m) /\
            behaves (repeat_parse fuel (Join (only op k) (layer fuel d (k + 1)))) m (Crash c)
      end.
    Proof.
      intros H. unfold behaves in H |- *. cbn [S_Layers.layer parse MapErr] in H. unfold map_err_parse in H. cbn [parse Map] in H.
      unfold map_parse in H. cbn [parse Join] in H. unfold join_parse in H. cbn [parse Repeat] in H.
      destruct (parse (layer fuel d (k + 1)) s) as [[x0 m|e m]| | |] eqn:E; cbn [bind fail done] in H.
      - destruct (repeat_parse fuel (Join (only op k) (layer fuel d (k + 1))) m) as [[[l e] r|e r]| | |] eqn:F; cbn [bind fail done] in H.
        + destruct w as [x r'|e'|e'|[]]; try (destruct H as (X & ? & H)); try discriminate; injection H as <- <-. exists x0, m, l, e. auto.
        + destruct w as [x r'|e'|e'|[]]; try (destruct H as (X & ? & H)); try discriminate; injection H as <- <-; right; exists x0, m, e.
          * split; [auto|]. split; [destruct e as [e|e]; exact X|eauto].
          * split; [auto|]. split; [split; [destruct e as [e|e]; exact X|eauto]|]. now destruct e.
        + destruct w as [x r'|e'|e'|[]]; try (destruct H as (X & ? & H)); try discriminate; right; eauto.
        + destruct w as [x r'|e'|e'|[]]; try (destruct H as (X & ? & H)); try discriminate; right; eauto.
        + destruct w as [x r'|e'|e'|[]]; try (destruct H as (X & ? & H)); try discriminate; right; eauto.
      - destruct w as [x r'|e'|e'|[]]; try (destruct H as (X & ? & H)); try discriminate; injection H as <- <-; left; split; eauto.
      - destruct w as [x r'|e'|e'|[]]; try (destruct H as (X & ? & H)); try discriminate; left; auto.
      - destruct w as [x r'|e'|e'|[]]; try (destruct H as (X & ? & H)); try discriminate; left; auto.
      - destruct w as [x r'|e'|e'|[]]; try (destruct H as (X & ? & H)); try discriminate; left; auto.
    Qed.

    Lemma step_sound s w : behaves (parse (layer fuel (Datatypes.S d) k)) s w -> w <> Crash CFuel ->
      exists v, w = built v /\ inner (Datatypes.S d) k s v.
    Proof.
      intros H N0. apply layer_cases in H.
      assert (UP : forall s e, inner d (k + 1) s (Cut e) -> inner (Datatypes.S d) k s (Cut e)).
      { intros s0 e V. inversion V; subst; [now constructor|]. eapply in_cut2; eauto using many_weaker, cut_weaker. }
      assert (UPC : forall s c, inner d (k + 1) s (Crash c) -> inner (Datatypes.S d) k s (Crash c)).
      { intros s0 e V. inversion V; subst; [now constructor|]. eapply in_crash2; eauto using many_weaker, crash_weaker. }
      assert (FIRST : forall x0 m, behaves (parse (layer fuel d (k + 1))) s (Succ x0 m) ->
        exists tr t q ps, x0 = build from_term from_bin tr /\ tm s (Succ t q) /\ many (pair_ k) q ps m /\ stops d (k + 1) m /\
          reading tr = (t, ps) /\ respects tr /\ from_on (k + 1) tr).
      { intros x0 m B. destruct (IH _ _ B) as (v & E & V); [discriminate|]. destruct v as [tr r'| | |]; try discriminate E.
        injection E as -> <-. inversion V as [? t q ps ? ? Z Z1 Z2 Z3 Z4| | | | |]; subst.
        exists tr, t, q, ps. repeat (split; [solve [auto using many_weaker]|]). apply from_on_reading. rewrite Z3. cbn.
        exact (many_above _ _ _ _ Z1). }
      destruct w as [x r|e|e|c].
      - destruct H as (x0 & m & l & e & B & R & ->). destruct (FIRST _ _ B) as (tr & t & q & ps & -> & X & M & Z & Rd & Rs & Fr).
        apply (repeat_sound LR _ seq_forward) in R; [|discriminate]. inversion R as [? ? ? ? M1 M2| |]; subst.
        destruct (many_succ _ _ _ M1 Z) as (gs & -> & G & M3 & Z'). destruct (seq_missed _ _ M2 Z') as (e' & M4).
        destruct (layer_tree k (side k) gs tr G Rs Fr) as (T1 & T2). exists (Succ (grouped Node (side k) tr gs) r). split.
        + cbn. now rewrite grouped_build.
        + econstructor; [exact X|eapply many_on; eauto|right; eauto| |exact T1]. now rewrite T2, Rd.
      - destruct H as [B|(x0 & m & e' & B & R)].
        + destruct (IH _ _ B) as (v & E & V); [discriminate|]. destruct v as [|e'| |]; try discriminate E. injection E as <-.
          exists (Missed e). split; [auto|]. inversion V; subst. now constructor.
        + apply (repeat_sound LR _ seq_forward) in R; [inversion R|discriminate].
      - destruct H as [B|(x0 & m & e' & B & R & ->)].
        + destruct (IH _ _ B) as (v & E & V); [discriminate|]. destruct v as [| |e'|]; try discriminate E. injection E as <-.
          exists (Cut e). auto.
        + destruct (FIRST _ _ B) as (tr & t & q & ps & -> & X & M & Z & _).
          apply (repeat_sound LR _ seq_forward) in R; [|discriminate]. inversion R as [|? ? ? ? M1 M2|]; subst.
          destruct (many_succ _ _ _ M1 Z) as (gs & -> & G & M3 & Z'). destruct (seq_cut _ _ M2) as (ps' & r' & M4 & M5).
          eexists (Cut _). split; [reflexivity|]. eapply in_cut2; [discriminate|exact X| |exact M5]. eauto using many_on.
      - assert (c <> CFuel) by congruence. destruct H as [B|(x0 & m & B & R)].
        + destruct (IH _ _ B) as (v & E & V); [congruence|]. destruct v as [| | |c']; try discriminate E. injection E as <-.
          exists (Crash c). auto.
        + destruct (FIRST _ _ B) as (tr & t & q & ps & -> & X & M & Z & _).
          apply (repeat_sound LR _ seq_forward) in R; [|congruence]. inversion R as [| |? ? ? ? M1 M2]; subst.
          destruct (many_succ _ _ _ M1 Z) as (gs & -> & G & M3 & Z'). destruct (seq_crash _ _ H0 M2) as (ps' & r' & M4 & M5).
          exists (Crash c). split; [reflexivity|]. eapply in_crash2; [discriminate|exact X| |exact M5]. eauto using many_on.
    Qed.
  End Step.

  Lemma layer_sound fuel d : forall k, levels <= k + d -> forall s w,
    behaves (parse (layer fuel d k)) s w -> w <> Crash CFuel -> exists v, w = built v /\ inner d k s v.
  Proof.
    induction d as [|d IH]; intros k L s w H N0.
    - unfold behaves in H. cbn [S_Layers.layer parse MapErr] in H. unfold map_err_parse in H. cbn [parse Map] in H. unfold map_parse in H.
      destruct (parse term s) as [[t m|e m]| | |] eqn:E; cbn in H.
      + destruct w as [x r'|e'|e'|[]]; try (destruct H as (X & ? & H)); try discriminate; injection H as <- <-.
        exists (Succ (Leaf t) m). split; [auto|]. econstructor; [exact E|constructor|now left|reflexivity|exact Logic.I].
      + destruct w as [x r'|e'|e'|[]]; try (destruct H as (X & ? & H)); try discriminate; injection H as <- <-; cbn in X.
        * exists (Missed (Last e)). split; [auto|]. constructor. split; eauto.
        * exists (Cut (Last e)). split; [auto|]. constructor. split; eauto.
      + destruct w as [x r'|e'|e'|[]]; try (destruct H as (X & ? & H)); try discriminate. exists (Crash CPanic). split; [auto|]. now constructor.
      + destruct w as [x r'|e'|e'|[]]; try (destruct H as (X & ? & H)); try discriminate. exists (Crash CUB). split; [auto|]. now constructor.
      + destruct w as [x r'|e'|e'|[]]; try (destruct H as (X & ? & H)); try discriminate. congruence.
    - apply step_sound with (fuel := fuel); auto.
      + intros ->. lia.
      + apply IH. lia.
  Qed.

  (** ** All the layers *)
  Notation oe := (operator_expression from_term from_bin tm (behaves (parse op))).
  Notation bpair := (sequence (behaves (parse op)) tm).

  Definition re (e : Either OE TE) : err := match e with First e => First (Some e) | Last e => Last e end.
  Lemma pair_all s v : pair_ 0 s v -> match v with
    | Succ p m => bpair s (Succ p m)
    | Missed e => exists e', e = re e' /\ bpair s (Missed e')
    | Cut e => exists e', e = re e' /\ bpair s (Cut e')
    | Crash c => bpair s (Crash c)
    end.
  Proof.
    intros H. inversion H as [? ? ? ? ? X Y|? ? X|? ? X|? ? X|? ? ? ? X Y|? ? ? ? X Y|? ? ? ? X Y]; subst; inversion X; subst; try lia.
    - econstructor; eauto.
    - eexists (First _). split; [reflexivity|]. now constructor.
    - eexists (First _). split; [reflexivity|]. now constructor.
    - now apply sq_crash1.
    - eexists (Last _). split; [reflexivity|]. eapply sq_miss2; eauto.
    - eexists (Last _). split; [reflexivity|]. eapply sq_cut2; eauto.
    - eapply sq_crash2; eauto.
  Qed.
  Lemma many_all s ps r : many (pair_ 0) s ps r -> many bpair s ps r.
  Proof. induction 1 as [|s v m vs r X Y IHm]; econstructor; eauto. exact (pair_all _ _ X). Qed.

  Lemma layers_are_oe fuel s w : 0 < levels -> behaves (parse (layer fuel levels 0)) s w -> w <> Crash CFuel ->
    exists v, w = as_layers v /\ oe s v.
  Proof.
    intros L H N0. destruct (layer_sound fuel levels 0 (le_n _) s w H N0) as (v & -> & V). destruct V as [s t m ps r tr Z Z1 Z2 Z3 Z4|s e Z|s e Z|s c Z|s t m ps r e D Z Z1 Z2|s t m ps r c D Z Z1 Z2].
    - destruct Z2 as [Z2|(e & Z2)]; [lia|]. apply pair_all in Z2 as (e' & -> & Z2).
      exists (Succ (build from_term from_bin tr, e') r). split; [auto|]. econstructor; eauto. econstructor; eauto using many_all.
    - exists (Missed (Last e)). split; [auto|]. now constructor.
    - exists (Cut (Last e)). split; [auto|]. now constructor.
    - exists (Crash c). split; [auto|]. now constructor.
    - apply pair_all in Z2 as (e' & -> & Z2). exists (Cut e'). split; [auto|]. eapply oe_cut2; eauto. econstructor; eauto using many_all.
    - apply pair_all in Z2. exists (Crash c). split; [auto|]. eapply oe_crash2; eauto. eapply rp_crash; eauto using many_all.
  Qed.

  (** ** With progress the layers come to an end *)
  Section Ends.
    Context (size : S -> nat) (fuel bound : nat).
    Context (Hpair : forall s o m t r, parse op s = Ret (Ok o m) -> parse term m = Ret (Ok t r) -> size r < size s).
    Context (Hno : forall s, parse op s <> OutOfFuel) (Hnt : forall s, parse term s <> OutOfFuel).
    Context (Hterm : forall s t r, parse term s = Ret (Ok t r) -> size r < fuel).

    Lemma many_less k s ps r : many (pair_ k) s ps r -> size r <= size s /\ (ps <> [] -> size r < size s).
    Proof.
      induction 1 as [|s v m vs r X Y IHm]; [split; [auto|congruence]|].
      inversion X as [? ? ? ? ? X1 X2| | | | | |]; subst. inversion X1 as [? ? ? X3| | | |]; subst.
      pose proof (Hpair _ _ _ _ _ X3 X2). destruct IHm. split; intros; lia.
    Qed.

    Lemma layer_ends d : forall k, levels <= k + d -> forall s, parse (layer fuel d k) s <> OutOfFuel.
    Proof.
      induction d as [|d IH]; intros k L s H.
      - cbn in H. unfold map_err_parse in H. cbn in H. unfold map_parse in H. specialize (Hnt s).
        destruct (parse term s) as [[]| | |]; cbn in H; congruence.
      - assert (SND : forall s w, behaves (parse (layer fuel d (k + 1))) s w -> w <> Crash CFuel ->
                    exists v, w = built v /\ inner d (k + 1) s v) by (apply layer_sound; lia).
        destruct (layer_cases fuel d k s (Crash CFuel) H) as [B|(x0 & m & B & R)].
        + exact (IH (k + 1) ltac:(lia) s B).
        + unfold behaves in R. revert R. apply (repeat_terminates LR _ size); [apply seq_forward| | |].
          * intros s0 [o x] r P. destruct (seq_succ fuel d k (fun E => ltac:(lia)) SND _ _ _ _ P) as (tr & _ & _ & _ & _ & _ & M & _).
            apply many_less in M as (_ & M). apply M. discriminate.
          * intros s0 P. cbn in P. unfold join_parse in P. destruct (parse (only op k) s0) as [[o m0|]| | |] eqn:Q; cbn [bind fail done] in P; try discriminate.
            -- destruct (parse (layer fuel d (k + 1)) m0) as [[]| | |] eqn:Q'; cbn [bind fail done] in P; try discriminate.
               exact (IH (k + 1) ltac:(lia) _ Q').
            -- apply (Hno s0). cbn in Q. unfold and_then_parse in Q. destruct (parse op s0) as [[o m0|]| | |]; cbn in Q; try congruence; try discriminate Q.
               destruct (precedence o =? k); discriminate.
          * destruct (SND _ _ B) as (v & E & V); [discriminate|]. destruct v as [tr r'| | |]; try discriminate E. injection E as -> <-.
            inversion V as [? t q ps ? ? Z Z1 Z2 Z3 Z4| | | | |]; subst. apply many_less in Z1 as (Z1 & _). specialize (Hterm _ _ _ Z). lia.
    Qed.
  End Ends.
End Layers.
