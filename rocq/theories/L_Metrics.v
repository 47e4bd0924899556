(** * L_Metrics: proofs about line/column metering. *)
From Verif Require Export M_Metrics S_Metrics S_Seq L_Base.
From Coq Require Import Lia.

(** ** Lines *)
Section Lines.
  Context {C : Type}.
  Implicit Types t text l : list C.

  Lemma snoc_case l : l = [] \/ exists l' x, l = l' ++ [x].
  Proof. destruct l using rev_ind; eauto. Qed.

  Lemma app_cut (a b c d : list C) :
    a ++ b = c ++ d -> (exists m, c = a ++ m /\ b = m ++ d) \/ (exists m, a = c ++ m /\ d = m ++ b).
  Proof.
    revert c. induction a as [|x a IH]; intros [|y c] H; cbn in *.
    - left. exists []. auto.
    - left. exists (y :: c). auto.
    - right. exists (x :: a). auto.
    - injection H as -> H. destruct (IH _ H) as [[m [-> ->]]|[m [-> ->]]]; [left|right]; exists m; auto.
  Qed.

  Lemma full_line_unique t l1 r1 l2 r2 :
    full_line t l1 -> full_line t l2 -> l1 ++ r1 = l2 ++ r2 -> l1 = l2 /\ r1 = r2.
  Proof.
    intros [[b1 E1] U1] [[b2 E2] U2] H.
    destruct (app_cut _ _ _ _ H) as [[m [E F]]|[m [E F]]].
    - assert (m = []) as -> by (apply (U2 b1); rewrite E, E1, app_assoc; auto).
      rewrite app_nil_r in E. auto.
    - assert (m = []) as -> by (apply (U1 b2); rewrite E, E2, app_assoc; auto).
      rewrite app_nil_r in E. auto.
  Qed.

  Lemma full_not_open t l1 r1 l2 : full_line t l1 -> open_line t l2 -> l1 ++ r1 <> l2.
  Proof. intros [[b E] _] [_ U] H. apply (U b r1). rewrite <- H, E, app_assoc. auto. Qed.

  Lemma full_nonempty t l r : t <> [] -> full_line t l -> l ++ r <> [].
  Proof.
    intros Ht [[b ->] _] H. apply app_eq_nil in H as [H _]. apply app_eq_nil in H as [_ H]. auto.
  Qed.

  Lemma lines_unique t text ls1 ls2 : t <> [] -> lines t text ls1 -> lines t text ls2 -> ls1 = ls2.
  Proof.
    intros Ht [C1 [f1 [e1 [-> [F1 O1]]]]]. revert text ls2 C1.
    induction F1 as [|l f1 Hl F1 IH]; intros text ls2 C1 [C2 [f2 [e2 [-> [F2 O2]]]]]; cbn in *.
    - destruct F2 as [|l2 f2 Hl2 F2]; cbn in *.
      + destruct O1 as [->|[l1 [-> O1]]], O2 as [->|[l2 [-> O2]]]; cbn in *; rewrite ?app_nil_r in *; subst; auto.
        * exfalso. apply (proj1 O2). auto.
        * exfalso. apply (proj1 O1). auto.
      + exfalso. destruct O1 as [->|[l1 [-> O1]]]; cbn in *.
        * rewrite <- C1 in C2. eapply full_nonempty; eauto.
        * rewrite app_nil_r in C1. rewrite <- C1 in C2. eapply full_not_open; [exact Hl2|exact O1|exact C2].
    - destruct F2 as [|l2 f2 Hl2 F2]; cbn in *.
      + exfalso. destruct O2 as [->|[l2 [-> O2]]]; cbn in *.
        * rewrite <- C2 in C1. eapply full_nonempty; eauto.
        * rewrite app_nil_r in C2. rewrite <- C2 in C1. eapply full_not_open; [exact Hl|exact O2|exact C1].
      + rewrite <- C1 in C2. symmetry in C2. destruct (full_line_unique _ _ _ _ _ Hl Hl2 C2) as [-> E].
        f_equal. eapply IH; [reflexivity|]. split; [auto|]. exists f2, e2. auto.
  Qed.

  (** One more character. *)
  Lemma last_inv (l : list C) a t c x : l ++ [x] = a ++ t ++ c -> c <> [] -> exists c', l = a ++ t ++ c'.
  Proof.
    intros H Hc. destruct (snoc_case c) as [->|[c' [y ->]]]; [congruence|].
    rewrite !app_assoc in H. apply app_inj_tail in H as [-> _]. exists c'. now rewrite app_assoc.
  Qed.

  Lemma snoc_full t l x :
    l = [] \/ open_line t l -> t <> [] -> (exists b, l ++ [x] = b ++ t) -> full_line t (l ++ [x]).
  Proof.
    intros Hl Ht He. split; [exact He|]. intros a c H.
    destruct c as [|y c]; [reflexivity|]. exfalso.
    destruct (last_inv _ _ _ _ _ H ltac:(discriminate)) as [c' E].
    destruct Hl as [->|[_ U]]; [|eapply U; eauto].
    destruct a; destruct t; cbn in E; congruence || discriminate.
  Qed.
  Lemma snoc_open t l x :
    l = [] \/ open_line t l -> t <> [] -> (forall b, l ++ [x] <> b ++ t) -> open_line t (l ++ [x]).
  Proof.
    intros Hl Ht He. split; [destruct l; discriminate|]. intros a c H.
    destruct c as [|y c]; [rewrite app_nil_r in H; eapply He; eauto|].
    destruct (last_inv _ _ _ _ _ H ltac:(discriminate)) as [c' E].
    destruct Hl as [->|[_ U]]; [|eapply U; eauto].
    destruct a; destruct t; cbn in E; congruence || discriminate.
  Qed.
End Lines.

(** [shape t text full cur]: closed lines and the current (possibly empty) line. *)
Definition shape {C} (t text : list C) (full : list (list C)) (cur : list C) : Prop :=
  text = concat full ++ cur /\ Forall (full_line t) full /\ (cur = [] \/ open_line t cur).
Definition lines_of {C} (full : list (list C)) (cur : list C) : list (list C) :=
  match cur with [] => full | _ => full ++ [cur] end.

Lemma shape_lines {C} (t text : list C) full cur :
  shape t text full cur -> lines t text (lines_of full cur).
Proof.
  intros [-> [F O]]. destruct cur as [|x cur]; cbn.
  - split; [now rewrite app_nil_r|]. exists full, []. rewrite app_nil_r. auto.
  - split; [now rewrite concat_app; cbn; rewrite app_nil_r|]. exists full, [x :: cur].
    split; auto. split; auto. right. exists (x :: cur). split; auto. destruct O; [discriminate|auto].
Qed.

Lemma shape_snoc_full {C} (t text : list C) full cur x :
  t <> [] -> shape t text full cur -> (exists b, cur ++ [x] = b ++ t) ->
  shape t (text ++ [x]) (full ++ [cur ++ [x]]) [].
Proof.
  intros Ht [-> [F O]] E. split; [|split; auto].
  - rewrite concat_app. cbn. rewrite !app_nil_r, app_assoc. reflexivity.
  - apply Forall_app. split; auto. constructor; auto. apply snoc_full; auto.
Qed.
Lemma shape_snoc_open {C} (t text : list C) full cur x :
  t <> [] -> shape t text full cur -> (forall b, cur ++ [x] <> b ++ t) ->
  shape t (text ++ [x]) full (cur ++ [x]).
Proof.
  intros Ht [-> [F O]] E. split; [|split; auto].
  - now rewrite app_assoc.
  - right. apply snoc_open; auto.
Qed.

Lemma lines_of_snoc_open {C} (full : list (list C)) cur x :
  lines_of full (cur ++ [x]) = full ++ [cur ++ [x]].
Proof. destruct cur; reflexivity. Qed.

Lemma lines_exist {C} (eq_dec : forall x y : C, {x = y} + {x <> y}) (t text : list C) :
  t <> [] -> exists ls, lines t text ls.
Proof.
  intros Ht. assert (exists full cur, shape t text full cur) as [full [cur H]].
  2: { eexists. apply shape_lines. exact H. }
  induction text as [|x text IH] using rev_ind.
  - exists [], []. repeat split; auto.
  - destruct IH as [full [cur H]].
    destruct (list_eq_dec eq_dec (skipn (length (cur ++ [x]) - length t) (cur ++ [x])) t) as [E|E].
    + exists (full ++ [cur ++ [x]]), []. apply shape_snoc_full; auto.
      exists (firstn (length (cur ++ [x]) - length t) (cur ++ [x])). rewrite <- E at 2. symmetry. apply firstn_skipn.
    + exists full, (cur ++ [x]). apply shape_snoc_open; auto. intros b Hb. apply E. rewrite Hb.
      rewrite app_length, Nat.add_sub, skipn_app, skipn_all, Nat.sub_diag. reflexivity.
Qed.

(** ** The meter, generally *)
Section General.
  Context {EOL : Type} {EE : EndOfLine EOL}.
  Notation run := (fun m (cs : list char) => linecolumn_advance m (Str cs) : LineColumnMeter EOL).

  Lemma run_app m a b : run m (a ++ b) = run (run m a) b.
  Proof. apply fold_left_app. Qed.

  Lemma run_pieces m (ps : list str) :
    fold_left linecolumn_advance ps m = run m (concat (map chars ps)).
  Proof.
    revert m. induction ps as [|p ps IH]; intros m; cbn [fold_left map concat]; [reflexivity|].
    rewrite IH. destruct p as [p]. cbn. now rewrite fold_left_app.
  Qed.

  Lemma step_total (m : LineColumnMeter EOL) c :
    total_count (metrics (meter_step m c)) = total_count (metrics m) + 1.
  Proof. unfold meter_step. destruct (eol_next (state m) c), (next_is_new_line m); reflexivity. Qed.

  Lemma run_total m cs : total_count (metrics (run m cs)) = total_count (metrics m) + length cs.
  Proof.
    cbn. revert m. induction cs as [|c cs IH]; intros m; cbn; [lia|]. rewrite IH, step_total. lia.
  Qed.

  Lemma linecolumn_compositional :
    compositional (fun (m : LineColumnMeter EOL) (x : list char) => meter_advance m (Str x)).
  Proof. split; [reflexivity|]. intros. symmetry. apply run_app. Qed.
End General.

(** ** One-character terminators *)
Section OneChar.
  Context {EOL : Type} {EE : EndOfLine EOL} (t : char).
  Context (Hnext : forall st c, eol_next st c = (if N.eqb c t then Match else NotMatch, st)).

  Lemma one_char_shape text :
    exists full cur, shape [t] text full cur /\
      linecolumn_advance linecolumnmeter_default (Str text)
      = MkMeter (MkLineColumn (length text) (length (lines_of full cur)) (length (last (lines_of full cur) [])))
                (match cur with [] => true | _ => false end) eol_default.
  Proof.
    induction text as [|c text IH] using rev_ind.
    - exists [], []. repeat split; auto.
    - destruct IH as [full [cur [Hs Hm]]]. cbn in *. rewrite fold_left_app, Hm. cbn.
      unfold meter_step. cbn. rewrite Hnext. destruct (N.eqb_spec c t) as [->|Hc].
      + exists (full ++ [cur ++ [t]]), []. split; [apply shape_snoc_full; [discriminate|auto|exists cur; auto]|].
        cbn. rewrite last_last, !app_length. cbn. destruct cur as [|x cur]; cbn.
        * reflexivity.
        * rewrite ?last_last, ?app_length; cbn; rewrite ?app_length; cbn; f_equal; f_equal; lia.
      + exists full, (cur ++ [c]). split.
        { apply shape_snoc_open; [discriminate|auto|]. intros b Hb. apply app_inj_tail in Hb. destruct Hb. auto. }
        rewrite lines_of_snoc_open, last_last, !app_length. cbn.
        destruct cur as [|x cur]; cbn.
        * reflexivity.
        * rewrite ?last_last, ?app_length; cbn; rewrite ?app_length; cbn; f_equal; f_equal; lia.
  Qed.

  Lemma one_char_lines text ls :
    lines [t] text ls ->
    metrics (linecolumn_advance linecolumnmeter_default (Str text))
    = MkLineColumn (length text) (length ls) (length (last ls [])).
  Proof.
    intros Hl. destruct (one_char_shape text) as [full [cur [Hs Hm]]]. rewrite Hm. cbn [metrics location_].
    rewrite (lines_unique [t] text ls (lines_of full cur)); auto; [discriminate|]. now apply shape_lines.
  Qed.

  (** Resuming. *)
  Lemma one_char_flag text :
    next_is_new_line (linecolumn_advance linecolumnmeter_default (Str text)) = true
    <-> text = [] \/ exists p, text = p ++ [t].
  Proof.
    cbn. destruct text as [|c text _] using rev_ind.
    - cbn. intuition.
    - rewrite fold_left_app. cbn. unfold meter_step. rewrite Hnext. cbn.
      split.
      + intros H. right. exists text. f_equal. f_equal.
        destruct (N.eqb_spec c t); auto. destruct next_is_new_line in H; discriminate.
      + intros [H|[p H]]; [destruct text; discriminate|]. apply app_inj_tail in H as [_ ->].
        rewrite N.eqb_refl. reflexivity.
  Qed.

  Lemma one_char_state (m : LineColumnMeter EOL) text : state (linecolumn_advance m (Str text)) = state m.
  Proof.
    cbn. revert m. induction text as [|c text IH]; intros m; cbn; auto. rewrite IH.
    unfold meter_step. now rewrite Hnext.
  Qed.

  (** The line gained over [b] from two meters differing by a line. *)
  Lemma one_char_ahead (m m' : LineColumnMeter EOL) b :
    line (metrics m') = line (metrics m) + 1 -> next_is_new_line m' = next_is_new_line m ->
    line (metrics (linecolumn_advance m' (Str b))) = line (metrics (linecolumn_advance m (Str b))) + 1.
  Proof.
    cbn. revert m m'. induction b as [|c b IH]; intros m m' H1 H2; cbn; auto.
    apply IH; unfold meter_step; rewrite !Hnext; cbn; rewrite H2.
    - destruct (next_is_new_line m); cbn; unfold metrics in *; lia.
    - reflexivity.
  Qed.

  Lemma one_char_resume a b :
    b <> [] ->
    (metrics (linecolumn_advance
               (linecolumnmeter_new (metrics (linecolumn_advance linecolumnmeter_default (Str a)))) (Str b))
     = metrics (linecolumn_advance linecolumnmeter_default (Str (a ++ b)))
     <-> a = [] \/ exists p, a = p ++ [t]).
  Proof.
    intros Hb. rewrite <- one_char_flag.
    change (linecolumn_advance linecolumnmeter_default (Str (a ++ b)))
      with (fold_left meter_step (a ++ b) linecolumnmeter_default). rewrite fold_left_app.
    change (fold_left meter_step b (fold_left meter_step a linecolumnmeter_default))
      with (linecolumn_advance (linecolumn_advance linecolumnmeter_default (Str a)) (Str b)).
    pose proof (one_char_state linecolumnmeter_default a) as Hst.
    remember (linecolumn_advance linecolumnmeter_default (Str a)) as m eqn:Em. clear Em.
    destruct m as [loc [] st]; cbn in Hst; subst st; cbn [next_is_new_line metrics location_].
    - split; auto.
    - split; [|discriminate]. intros H. exfalso. destruct b as [|c b]; [congruence|]. cbn in H.
      unfold linecolumnmeter_new in H.
      pose proof (one_char_ahead (meter_step (MkMeter loc false eol_default) c)
                    (meter_step (MkMeter loc true eol_default) c) b) as Ha.
      assert (line (metrics (meter_step (MkMeter loc true eol_default) c))
              = line (metrics (meter_step (MkMeter loc false eol_default) c)) + 1) as E1.
      { unfold meter_step. rewrite !Hnext. reflexivity. }
      assert (next_is_new_line (meter_step (MkMeter loc true eol_default) c)
              = next_is_new_line (meter_step (MkMeter loc false eol_default) c)) as E2.
      { unfold meter_step. rewrite !Hnext. reflexivity. }
      specialize (Ha E1 E2). cbn in Ha. unfold metrics in *. rewrite H in Ha. lia.
  Qed.
End OneChar.

(** ** CR LF *)
Lemma trailing_snoc c l x : trailing c (l ++ [x]) = if N.eqb x c then S (trailing c l) else 0.
Proof. unfold trailing. rewrite rev_app_distr. reflexivity. Qed.

Lemma trailing_app_nonempty c a l : l <> [] -> 0 < trailing c (a ++ l) <-> 0 < trailing c l.
Proof.
  intros Hl. destruct (snoc_case l) as [->|[l' [x ->]]]; [congruence|].
  rewrite app_assoc, !trailing_snoc. destruct (N.eqb x c); lia.
Qed.

Lemma trailing_pos c l : 0 < trailing c l <-> exists b, l = b ++ [c].
Proof.
  destruct (snoc_case l) as [->|[l' [x ->]]].
  - cbn. split; [lia|]. intros [[|? ?] H]; discriminate.
  - rewrite trailing_snoc. destruct (N.eqb_spec x c) as [->|H].
    + split; [eauto|lia].
    + split; [lia|]. intros [b E]. apply app_inj_tail in E as [_ E]. congruence.
Qed.

(** The text ends with a CR LF that the automaton does not recognise. *)
Definition even_crlf_end (text : list char) : Prop :=
  exists a, text = a ++ [chr_lf] /\ 0 < trailing 13 a /\ Nat.even (trailing 13 a) = true.

Lemma even_crlf_inside_nil : ~ even_crlf_inside [].
Proof. intros [a [b [H _]]]. destruct a; discriminate. Qed.

Lemma even_crlf_inside_snoc text c :
  even_crlf_inside (text ++ [c]) <-> even_crlf_inside text \/ even_crlf_end text.
Proof.
  split.
  - intros [a [b [H [Hb [H1 H2]]]]]. destruct (snoc_case b) as [->|[b' [x ->]]]; [congruence|].
    rewrite !app_assoc in H. apply app_inj_tail in H as [-> _].
    destruct b' as [|y b'].
    + right. exists a. rewrite app_nil_r. auto.
    + left. exists a, (y :: b'). rewrite <- app_assoc. repeat split; auto. discriminate.
  - intros [[a [b [-> [Hb [H1 H2]]]]]|[a [-> [H1 H2]]]].
    + exists a, (b ++ [c]). rewrite <- !app_assoc. repeat split; auto. destruct b; discriminate.
    + exists a, [c]. rewrite <- app_assoc. repeat split; auto. discriminate.
Qed.

Lemma even_crlf_end_snoc text c :
  even_crlf_end (text ++ [c]) <-> c = chr_lf /\ 0 < trailing 13 text /\ Nat.even (trailing 13 text) = true.
Proof.
  split.
  - intros [a [H [H1 H2]]]. apply app_inj_tail in H as [-> ->]. auto.
  - intros [-> H]. exists text. auto.
Qed.

Lemma even_crlf_end_dec text : even_crlf_end text \/ ~ even_crlf_end text.
Proof.
  destruct (snoc_case text) as [->|[t [c ->]]].
  - right. intros [[|? ?] [H _]]; discriminate.
  - rewrite even_crlf_end_snoc. destruct (N.eq_dec c chr_lf), (Nat.eq_dec (trailing 13 t) 0), (Nat.even (trailing 13 t));
      intuition (try lia; try discriminate).
Qed.

Notation crlf_run text := (linecolumn_advance (EOL := CRLF) linecolumnmeter_default (Str text)).

Definition is_nil {X} (l : list X) : bool := match l with [] => true | _ => false end.

Lemma lines_of_length {C} (full : list (list C)) cur :
  length (lines_of full cur) = length full + (if is_nil cur then 0 else 1).
Proof. destruct cur; cbn; [lia|]. rewrite app_length. reflexivity. Qed.

Lemma cur_ends (full : list (list char)) cur text c :
  shape [13; 10]%N text full cur ->
  (exists b, cur ++ [c] = b ++ [13; 10]%N) <-> c = chr_lf /\ 0 < trailing 13 text.
Proof.
  intros [-> [F O]]. split.
  - intros [b H]. change [13; 10]%N with ([13] ++ [10])%N in H. rewrite app_assoc in H.
    apply app_inj_tail in H as [-> ->]. split; [reflexivity|].
    rewrite trailing_app_nonempty by (destruct b; discriminate). apply trailing_pos. eauto.
  - intros [-> H]. destruct cur as [|x cur].
    + exfalso. rewrite app_nil_r in H. destruct (snoc_case full) as [->|[f [l ->]]]; [cbn in H; lia|].
      rewrite concat_app in H. cbn in H. rewrite app_nil_r in H.
      apply Forall_app in F as [_ F]. inversion F; subst. destruct H2 as [[b ->] _].
      rewrite app_assoc in H. change [13; 10]%N with ([13] ++ [10])%N in H. rewrite app_assoc in H.
      rewrite trailing_snoc in H. cbn in H. lia.
    + rewrite trailing_app_nonempty in H by discriminate. apply trailing_pos in H as [b E]. rewrite E.
      exists b. rewrite <- app_assoc. reflexivity.
Qed.

Lemma crlf_shape text :
  exists full cur, shape [13; 10]%N text full cur /\
    state (crlf_run text) = MkCRLF (if Nat.even (trailing 13 text) then StInitial else StCR) /\
    (next_is_new_line (crlf_run text) = true -> cur = []) /\
    (~ even_crlf_inside text ->
       (next_is_new_line (crlf_run text) = true <-> cur = [] /\ ~ even_crlf_end text) /\
       line (metrics (crlf_run text)) = length (lines_of full cur) /\
       column (metrics (crlf_run text)) = length (last (lines_of full cur) [])) /\
    (even_crlf_inside text -> line (metrics (crlf_run text)) < length (lines_of full cur)).
Proof.
  induction text as [|c text IH] using rev_ind.
  - exists [], []. split; [repeat split; auto|]. split; [reflexivity|]. split; [auto|]. split.
    + intros _. cbn. repeat split; auto. intros [[|? ?] [HH _]]; discriminate.
    + intros H. now apply even_crlf_inside_nil in H.
  - destruct IH as [full [cur [Hs [Hst [Hcur [Hgood Hbad]]]]]].
    assert (crlf_run (text ++ [c]) = meter_step (crlf_run text) c) as E by (cbn; now rewrite fold_left_app).
    rewrite E. clear E. remember (crlf_run text) as m eqn:Em. clear Em.
    destruct m as [[tot ln col] flag st]. cbn [state next_is_new_line metrics location_ line column] in *. subst st.
    (* is the character a terminator, and is it seen? *)
    set (seen := N.eqb c 10 && negb (Nat.even (trailing 13 text))).
    assert (meter_step (MkMeter (MkLineColumn tot ln col) flag
              (MkCRLF (if Nat.even (trailing 13 text) then StInitial else StCR))) c
            = MkMeter (MkLineColumn (tot + 1) (if flag then ln + 1 else ln) ((if flag then 0 else col) + 1))
                seen (MkCRLF (if Nat.even (trailing 13 (text ++ [c])) then StInitial else StCR))) as E.
    { unfold meter_step, seen. rewrite trailing_snoc. cbn.
      destruct (Nat.even (trailing 13 text)) eqn:Ev; cbn -[N.eqb].
      - unfold chr_cr. destruct (N.eqb_spec c 13) as [->|Hc]; cbn -[N.eqb Nat.even].
        + rewrite Nat.even_succ, <- Nat.negb_even, Ev. destruct flag; reflexivity.
        + destruct flag, (N.eqb c 10); reflexivity.
      - unfold chr_lf. destruct (N.eqb_spec c 13) as [->|Hc]; cbn -[N.eqb Nat.even].
        + rewrite Nat.even_succ, <- Nat.negb_even, Ev. destruct flag; reflexivity.
        + destruct flag, (N.eqb c 10); reflexivity. }
    rewrite E. clear E. cbn [state next_is_new_line metrics location_ line column].
    assert (c = chr_lf /\ 0 < trailing 13 text \/ ~ (c = chr_lf /\ 0 < trailing 13 text)) as [Hend|Hend].
    { destruct (N.eq_dec c chr_lf), (Nat.eq_dec (trailing 13 text) 0); intuition lia. }
    + exists (full ++ [cur ++ [c]]), [].
      split; [apply shape_snoc_full; [discriminate|auto|]; now apply (cur_ends full cur text c)|].
      split; [reflexivity|]. split; [auto|]. cbn [lines_of]. rewrite app_length, last_last, app_length. cbn [length].
      rewrite lines_of_length in *. rewrite even_crlf_inside_snoc, even_crlf_end_snoc. split.
      * intros Hn. destruct Hgood as [[G1 G1'] [G2 G3]]; [tauto|]. unfold seen. split; [|split].
        -- destruct Hend as [-> Hp]. cbn. destruct (Nat.even (trailing 13 text)); cbn; intuition (try discriminate; try lia).
        -- destruct flag.
           ++ rewrite (Hcur eq_refl) in *. cbn in *. lia.
           ++ destruct cur as [|x cur]; cbn in *; [|lia]. exfalso. assert (false = true) by tauto. discriminate.
        -- destruct flag.
           ++ rewrite (Hcur eq_refl) in *. cbn in *. lia.
           ++ destruct cur as [|x cur]; cbn [lines_of is_nil] in *; [|rewrite last_last in G3; lia].
              exfalso. assert (false = true) by tauto. discriminate.
      * intros [H|H].
        -- specialize (Hbad H). destruct flag; [|destruct cur; cbn in *; lia].
           rewrite (Hcur eq_refl) in *. cbn in *. lia.
        -- destruct (N.eq_dec 0 1); [discriminate|].
           exfalso. destruct H as [a [-> [H1 H2]]]. destruct Hend as [_ Hp]. rewrite trailing_snoc in Hp. cbn in Hp. lia.
    + exists full, (cur ++ [c]).
      split; [apply shape_snoc_open; [discriminate|auto|]; intros b Hb; apply Hend, (cur_ends full cur text c); eauto|].
      split; [reflexivity|]. rewrite lines_of_snoc_open. rewrite app_length, last_last, app_length. cbn [length].
      rewrite lines_of_length in *. rewrite even_crlf_inside_snoc, even_crlf_end_snoc.
      assert (seen = false) as ->.
      { unfold seen. destruct (N.eqb_spec c 10) as [->|]; [|reflexivity]. cbn.
        destruct (Nat.eq_dec (trailing 13 text) 0) as [->|]; [reflexivity|]. exfalso. apply Hend. split; [reflexivity|lia]. }
      split; [discriminate|]. split.
      * intros Hn. destruct Hgood as [[G1 G1'] [G2 G3]]; [tauto|]. split; [|split].
        -- split; [discriminate|]. intros [H _]. destruct cur; discriminate.
        -- destruct flag.
           ++ rewrite (Hcur eq_refl) in *. cbn in *. lia.
           ++ destruct cur as [|x cur]; cbn in *; [|lia]. exfalso. assert (false = true) by tauto. discriminate.
        -- destruct flag.
           ++ rewrite (Hcur eq_refl) in *. cbn in *. lia.
           ++ destruct cur as [|x cur]; cbn [lines_of is_nil] in *; [|rewrite last_last in G3; lia].
              exfalso. assert (false = true) by tauto. discriminate.
      * intros [H|H].
        -- specialize (Hbad H). destruct flag; [|destruct cur; cbn in *; lia].
           rewrite (Hcur eq_refl) in *. cbn in *. lia.
        -- (* a missed terminator becomes visible *)
           assert (~ even_crlf_inside text \/ even_crlf_inside text) as [Hi|Hi].
           { clear -text. induction text as [|x t IH] using rev_ind.
             - left. apply even_crlf_inside_nil.
             - rewrite even_crlf_inside_snoc. destruct (even_crlf_end_dec t); tauto. }
           ++ destruct Hgood as [[G1 G1'] [G2 G3]]; auto.
              assert (flag = false) as -> by (destruct flag; auto; destruct (G1 eq_refl); tauto).
              assert (cur = []) as ->; [|cbn in *; lia].
              destruct H as [a [-> [Ha _]]].
              apply trailing_pos in Ha as [a' ->].
              destruct Hs as [Hc [F O]]. destruct cur as [|x cur]; auto. exfalso.
              destruct O as [O|[_ O]]; [discriminate|].
              destruct (snoc_case (x :: cur)) as [?|[l' [y E]]]; [discriminate|]. rewrite E in *.
              rewrite app_assoc in Hc. apply app_inj_tail in Hc as [Hc <-].
              destruct (snoc_case l') as [->|[l'' [z ->]]].
              ** rewrite app_nil_r in Hc.
                 assert (0 < trailing 13 (concat full)) as Ht by (apply trailing_pos; eauto).
                 destruct (snoc_case full) as [->|[f [l ->]]]; [cbn in Ht; lia|].
                 rewrite concat_app in Ht. cbn in Ht. rewrite app_nil_r in Ht.
                 apply Forall_app in F as [_ F]. inversion F; subst. destruct H1 as [[b ->] _].
                 rewrite app_assoc in Ht. change [13; 10]%N with ([13] ++ [10])%N in Ht. rewrite app_assoc in Ht.
                 rewrite trailing_snoc in Ht. cbn in Ht. lia.
              ** rewrite app_assoc in Hc. apply app_inj_tail in Hc as [_ <-].
                 apply (O l'' []). rewrite <- app_assoc. reflexivity.
           ++ specialize (Hbad Hi). destruct flag; [|destruct cur; cbn in *; lia].
              rewrite (Hcur eq_refl) in *. cbn in *. lia.
Qed.

Lemma crlf_exact text ls :
  lines [13; 10]%N text ls ->
  (metrics (crlf_run text) = MkLineColumn (length text) (length ls) (length (last ls []))
   <-> ~ even_crlf_inside text).
Proof.
  intros Hl. destruct (crlf_shape text) as [full [cur [Hs [_ [_ [Hg Hb]]]]]].
  rewrite (lines_unique [13; 10]%N _ _ _ ltac:(discriminate) Hl (shape_lines _ _ _ _ Hs)). split.
  - intros E H. specialize (Hb H). rewrite E in Hb. cbn in Hb. lia.
  - intros H. destruct (Hg H) as [_ [H1 H2]]. pose proof (run_total (EOL := CRLF) linecolumnmeter_default text) as H3.
    cbn beta in H3.
    destruct (metrics (crlf_run text)) as [a b c] eqn:E. cbn [total_count line column] in *.
    rewrite H1, H2, H3. reflexivity.
Qed.

Lemma crlf_never_more text ls :
  lines [13; 10]%N text ls -> line (metrics (crlf_run text)) <= length ls.
Proof.
  intros Hl. destruct (crlf_shape text) as [full [cur [Hs [_ [_ [Hg Hb]]]]]].
  rewrite (lines_unique [13; 10]%N _ _ _ ltac:(discriminate) Hl (shape_lines _ _ _ _ Hs)).
  assert (~ even_crlf_inside text \/ even_crlf_inside text) as [Hi|Hi].
  { clear -text. induction text as [|x t IH] using rev_ind.
    - left. apply even_crlf_inside_nil.
    - rewrite even_crlf_inside_snoc. destruct (even_crlf_end_dec t); tauto. }
  - destruct (Hg Hi) as [_ [H1 _]]. lia.
  - specialize (Hb Hi). lia.
Qed.

(** Resuming after a recognised terminator, for any convention whose automaton
    is in its default state there. *)
Lemma resume_when {EOL} {EE : EndOfLine EOL} a b :
  let m := linecolumn_advance (EOL := EOL) linecolumnmeter_default (Str a) in
  next_is_new_line m = true -> state m = eol_default ->
  linecolumn_advance (linecolumnmeter_new (metrics m)) (Str b)
  = linecolumn_advance linecolumnmeter_default (Str (a ++ b)).
Proof.
  intros m Hf Hst. transitivity (linecolumn_advance m (Str b)).
  - f_equal. destruct m; cbn in *. subst. reflexivity.
  - unfold m. cbn. now rewrite fold_left_app.
Qed.

Lemma crlf_resume a b :
  a = [] \/ (exists p, a = p ++ [10]%N /\ Nat.odd (trailing 13 p) = true) ->
  metrics (linecolumn_advance (EOL := CRLF) (linecolumnmeter_new (metrics (crlf_run a))) (Str b)) = metrics (crlf_run (a ++ b)).
Proof.
  intros [->|[p [-> Hp]]]; [reflexivity|]. f_equal. apply resume_when.
  - destruct (crlf_shape p) as [_ [_ [_ [Hst _]]]]. 
    unfold Nat.odd in Hp. apply negb_true_iff in Hp. rewrite Hp in Hst.
    assert (crlf_run (p ++ [10]%N) = meter_step (crlf_run p) 10%N) as -> by (cbn; now rewrite fold_left_app).
    destruct (crlf_run p) as [loc fl st]. cbn in Hst. subst st. reflexivity.
  - destruct (crlf_shape (p ++ [10]%N)) as [_ [_ [_ [Hst _]]]]. rewrite Hst, trailing_snoc. reflexivity.
Qed.

(** ** Comparison *)
Lemma cmp_along_text {EOL} {EE : EndOfLine EOL} (m0 : LineColumnMeter EOL) a b :
  let at_ t := metrics (linecolumn_advance m0 (Str t)) in
  linecolumn_cmp (at_ a) (at_ (a ++ b)) = Ret (if is_nil b then Eq else Lt) /\
  linecolumn_cmp (at_ (a ++ b)) (at_ a) = Ret (if is_nil b then Eq else Gt) /\
  linecolumn_eq (at_ a) (at_ (a ++ b)) = is_nil b.
Proof.
  intros at_. assert (forall t, total_count (at_ t) = total_count (metrics m0) + length t) as H by (intros; apply run_total).
  unfold linecolumn_cmp, linecolumn_partial_cmp, linecolumn_eq. rewrite !H, app_length.
  destruct b as [|x b]; cbn [is_nil length].
  - rewrite Nat.add_0_r, Nat.compare_refl, Nat.eqb_refl, app_nil_r, !Nat.eqb_refl. auto.
  - split; [f_equal; apply Nat.compare_lt_iff; lia|]. split; [f_equal; apply Nat.compare_gt_iff; lia|].
    replace (total_count (metrics m0) + length a =? total_count (metrics m0) + (length a + S (length b))) with false
      by (symmetry; apply Nat.eqb_neq; lia). reflexivity.
Qed.
