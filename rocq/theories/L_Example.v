(** * L_Example: proofs about the example grammar. *)
From Verif Require Export L_Comb L_Prim L_BinExpr M_Example S_Example.

Local Arguments Nat.ltb : simpl never.
Local Arguments Nat.leb : simpl never.
Local Arguments Nat.eqb : simpl never.
Local Arguments Nat.mul : simpl never.
Local Arguments chars_len : simpl never.

(** ** Numerals *)
Definition value (acc : nat) (cs : list char) : nat :=
  fold_left (fun a c => 10 * a + (N.to_nat c - 48)) cs acc.

Lemma value_app acc a b : value acc (a ++ b) = value (value acc a) b.
Proof. apply fold_left_app. Qed.

Lemma numeral_value cs n : numeral cs n <-> cs <> [] /\ Forall digit cs /\ n = value 0 cs.
Proof.
  split.
  - induction 1 as [c D|cs n c _ IH D].
    + split; [discriminate|]. split; auto.
    + destruct IH as (_ & F & ->). split; [destruct cs; discriminate|].
      split; [apply Forall_app; auto|]. rewrite value_app. reflexivity.
  - revert n. induction cs as [|c cs IH] using rev_ind; intros n (H1 & H2 & ->); [congruence|].
    apply Forall_app in H2. destruct H2 as [H2 H3]. inversion H3; subst.
    rewrite value_app. cbn. destruct cs as [|d cs].
    + constructor. auto.
    + constructor; auto. apply IH. repeat split; auto. discriminate.
Qed.

Lemma digit_spec c : is_ascii_digit c = true <-> digit c.
Proof. unfold is_ascii_digit, digit. rewrite andb_true_iff, !N.leb_le. tauto. Qed.

Lemma digit_value_spec c : digit c -> digit_value c = N.to_nat c - 48.
Proof. unfold digit_value, digit. intros H. rewrite N2Nat.inj_sub. reflexivity. Qed.

Lemma value_ge cs : forall acc, acc <= value acc cs.
Proof.
  induction cs as [|c cs IH]; intros acc; cbn; [lia|].
  etransitivity; [|apply IH]. lia.
Qed.

Lemma from_digits_spec max cs : Forall digit cs -> forall acc, acc <= max ->
  (value acc cs <= max -> from_digits max acc cs = Ret (value acc cs)) /\
  (max < value acc cs -> from_digits max acc cs = Panic).
Proof.
  induction 1 as [|c cs D F IH]; intros acc Ha; cbn.
  - split; [auto|lia].
  - rewrite (digit_value_spec _ D). replace (acc * 10) with (10 * acc) by lia.
    pose proof (value_ge cs (10 * acc + (N.to_nat c - 48))) as G.
    destruct (Nat.leb_spec (10 * acc + (N.to_nat c - 48)) max) as [L|L].
    + apply (IH _ L).
    + split; [|auto]. unfold value in *. lia.
Qed.

Lemma radix_spec max cs n : numeral cs n ->
  (n <= max -> from_str_radix_unwrap max cs = Ret n) /\
  (max < n -> from_str_radix_unwrap max cs = Panic).
Proof.
  intros H. apply numeral_value in H. destruct H as (H1 & H2 & ->).
  destruct cs as [|c cs]; [congruence|].
  exact (from_digits_spec max (c :: cs) H2 0 (Nat.le_0_l _)).
Qed.

Lemma numeral_extend cs n ds : numeral cs n -> Forall digit ds -> numeral (cs ++ ds) (value n ds).
Proof.
  intros H F. apply numeral_value in H. destruct H as (H1 & H2 & ->). apply numeral_value.
  split; [destruct cs; [congruence|discriminate]|]. split; [apply Forall_app; auto|].
  now rewrite value_app.
Qed.

Lemma take_while_split {T} (p : T -> bool) l :
  exists rest, l = take_while p l ++ rest /\ Forall (fun x => p x = true) (take_while p l) /\
    match rest with [] => True | x :: _ => p x = false end.
Proof.
  induction l as [|x l (rest & E & F & H)]; cbn; [exists []; auto|].
  destruct (p x) eqn:P; cbn.
  - exists rest. rewrite <- E. auto.
  - exists (x :: l). auto.
Qed.

(** ** Chains of terms *)
Definition pair_text (p : Op * Term) (cs : list char) : Prop :=
  exists sp sp' ct, spaces sp /\ spaces sp' /\ writes (ETerm (snd p)) ct /\
    cs = sp ++ [symbol (fst p)] ++ sp' ++ ct.

Notation etree := (tree Term Op).
Notation ebuild := (build expr_from_term expr_from_bin).

Definition root_ok_left (tr : etree) o := forall c, root tr = Some c -> left_ok c o.

Lemma tightness_build (tr : etree) :
  tightness (ebuild tr) = match root tr with None => 3 | Some o => strength o end.
Proof. now destruct tr. Qed.

Lemma strength_precedence o : strength o = precedence o.
Proof. now destruct o. Qed.
Lemma strength_bounds o : 1 <= strength o <= 2.
Proof. destruct o; cbn; lia. Qed.

Lemma left_tight (tr : etree) o :
  strength o <= tightness (ebuild tr) <-> (forall c, root tr = Some c -> left_ok c o).
Proof.
  rewrite tightness_build. pose proof (strength_bounds o). destruct (root tr) as [c|].
  - unfold left_ok. change (@precedence Op _) with strength. split.
    + intros L c' E. injection E as <-. destruct (Nat.eq_dec (strength o) (strength c)); [right; split; auto|left; lia].
    + intros L. destruct (L c eq_refl) as [L'|[L' _]]; lia.
  - split; [discriminate|lia].
Qed.

Lemma right_tight (tr : etree) o :
  strength o < tightness (ebuild tr) <-> (forall c, root tr = Some c -> right_ok c o).
Proof.
  rewrite tightness_build. pose proof (strength_bounds o). destruct (root tr) as [c|].
  - unfold right_ok. change (@precedence Op _) with strength. split.
    + intros L c' E. injection E as <-. left; lia.
    + intros L. destruct (L c eq_refl) as [L'|[L' E]]; [lia|discriminate].
  - split; [discriminate|lia].
Qed.

Lemma writes_chain e cs : writes e cs ->
  exists (tr : etree) t ct ps cps, e = ebuild tr /\ respects tr /\ reading tr = (t, ps) /\
    writes (ETerm t) ct /\ Forall2 pair_text ps cps /\ cs = ct ++ concat cps.
Proof.
  induction 1 as [n cs N|e cs W IH|l o r cl cr sp sp' Wl IHl Wr IHr Sp Sp' Tl Tr].
  - exists (Leaf (Integer n)), (Integer n), cs, [], []. cbn. rewrite app_nil_r.
    repeat split; auto. now constructor.
  - exists (Leaf (Parenthesized e)), (Parenthesized e), ([40%N] ++ cs ++ [41%N]), [], [].
    cbn [concat]. rewrite app_nil_r. repeat split; auto. now constructor.
  - destruct IHl as (trl & tl & ctl & psl & cpsl & -> & Rl & Dl & Wtl & Fl & ->).
    destruct IHr as (trr & tr & ctr & psr & cpsr & -> & Rr & Dr & Wtr & Fr & ->).
    exists (Node trl o trr), tl, ctl, (psl ++ (o, tr) :: psr),
      (cpsl ++ (sp ++ [symbol o] ++ sp' ++ ctr) :: cpsr).
    split; [reflexivity|]. split.
    { cbn. split; auto. split; auto. split; [now apply left_tight|now apply right_tight]. }
    split; [cbn; rewrite Dl, Dr; reflexivity|]. split; auto. split.
    { apply Forall2_app; auto. constructor; auto. exists sp, sp', ctr. auto. }
    rewrite concat_app. cbn [concat]. rewrite <- !app_assoc. reflexivity.
Qed.

Lemma chain_writes (tr : etree) : respects tr -> forall t ct ps cps, reading tr = (t, ps) ->
  writes (ETerm t) ct -> Forall2 pair_text ps cps -> writes (ebuild tr) (ct ++ concat cps).
Proof.
  induction tr as [t0|l IHl o r IHr]; intros R t ct ps cps E W F; cbn in E.
  - injection E as <- <-. inversion F; subst. cbn [concat]. rewrite app_nil_r. exact W.
  - cbn in R. destruct R as (Rl & Rr & Kl & Kr).
    destruct (reading l) as [tl psl] eqn:El, (reading r) as [trr psr] eqn:Er. cbn in E. injection E as <- <-.
    apply Forall2_app_inv_l in F. destruct F as (cpsl & q & Fl & Fq & ->).
    inversion Fq as [|? c ? cpsr (sp & sp' & ctr & Sp & Sp' & Wr & ->) Fr]; subst.
    specialize (IHl Rl _ _ _ _ eq_refl W Fl). specialize (IHr Rr _ _ _ _ eq_refl Wr Fr).
    rewrite concat_app. cbn [concat fst]. replace (ct ++ concat cpsl ++ (sp ++ [symbol o] ++ sp' ++ ctr) ++ concat cpsr)
      with ((ct ++ concat cpsl) ++ sp ++ [symbol o] ++ sp' ++ (ctr ++ concat cpsr)) by (rewrite <- !app_assoc; reflexivity).
    cbn [build]. unfold expr_from_bin at 1. constructor; auto; [now apply left_tight|now apply right_tight].
Qed.

(** What a term starts with. *)
Lemma term_head t ct : writes (ETerm t) ct -> exists c ct', ct = c :: ct' /\ (digit c \/ c = 40%N).
Proof.
  intros W. inversion W; subst.
  - match goal with H : numeral _ _ |- _ => apply numeral_value in H; destruct H as (H1 & H2 & _) end.
    destruct ct as [|c ct']; [congruence|]. inversion H2; subst. eauto.
  - cbn. eauto.
Qed.

Lemma writes_nonempty e cs : writes e cs -> cs <> [].
Proof.
  intros W. apply writes_chain in W. destruct W as (tr & t & ct & ps & cps & _ & _ & _ & W & _ & ->).
  apply term_head in W. destruct W as (c & ct' & -> & _). discriminate.
Qed.

Lemma fits_build max (tr : etree) : forall t ps, reading tr = (t, ps) ->
  (fits max (ebuild tr) <-> term_fits max t /\ Forall (fun p => term_fits max (snd p)) ps).
Proof.
  induction tr as [t0|l IHl o r IHr]; intros t ps E; cbn in E.
  - injection E as <- <-. cbn. intuition.
  - destruct (reading l) as [tl psl] eqn:El, (reading r) as [trr psr] eqn:Er. cbn in E. injection E as <- <-.
    cbn. rewrite (IHl _ _ eq_refl), (IHr _ _ eq_refl), Forall_app. 
    split.
    + intros ((A & B) & C & D). repeat split; auto.
    + intros (A & B & C). inversion C; subst. repeat split; auto.
Qed.

Fixpoint fits_dec max e : {fits max e} + {~ fits max e}
with term_fits_dec max t : {term_fits max t} + {~ term_fits max t}.
Proof.
  - destruct e as [l o r|t]; cbn.
    + destruct (fits_dec max l); [|tauto]. destruct (fits_dec max r); tauto.
    + apply term_fits_dec.
  - destruct t as [e|n]; cbn; [apply fits_dec|apply le_dec].
Defined.

(** ** The parsers *)
Section Parsers.
  Context {S A : Type} {SQ : Sequence S str} {RS : RewindSequence S A} {reach : S -> S -> Prop}.
  Context (LP : lawful_positions reach).
  Context (usize_max : nat) (overflow_checks : bool) (budget : nat).
  Let LR : lawful_rewind reach := lp_rewind LP.

  Lemma lawful_text_of_positions : lawful_text (S := S).
  Proof. intros s a b H. destruct (lp_advance LP s a b H) as (s' & H1 & H2 & _). eauto. Qed.

  Lemma advance_first (s : S) c rest : text s = c :: rest ->
    exists s', advance s (len_utf8 c) = Ret s' /\ text s' = rest /\ reach s s'.
  Proof.
    intros H. destruct (lp_advance LP s [c] rest H) as (s' & H1 & H2 & H3). rewrite chars_len_cons in H1.
    cbn in H1. rewrite Nat.add_0_r in H1. eauto.
  Qed.

  (** *** One character *)
  Lemma the_char_exact c (s : S) :
    (forall rest, text s = c :: rest ->
       exists s', the_char_parse c s = Ret (Ok tt s') /\ text s' = rest /\ reach s s') /\
    ((forall rest, text s <> c :: rest) -> the_char_parse c s = Ret (Err (MkMiss tt) s)).
  Proof.
    unfold the_char_parse. pose proof (advance_first s) as Hadv. unfold text at 1 in Hadv. unfold text at 1 3.
    induction (segments s) as [|seg segs IH]; cbn; [split; [discriminate|reflexivity]|].
    destruct (chars seg) as [|y ys] eqn:E; cbn in *; rewrite E in Hadv; cbn in Hadv; [exact (IH Hadv)|]. split.
    - intros rest H. injection H as -> H. rewrite N.eqb_refl.
      destruct (Hadv c rest) as (s' & H1 & H2 & H3); [congruence|]. rewrite H1. cbn. exists s'. auto.
    - intros H. destruct (N.eqb_spec y c) as [->|]; auto.
      exfalso. eapply H. reflexivity.
  Qed.

  Lemma the_char_sound c (s : S) r : the_char_parse c s = Ret r ->
    match r with
    | Ok _ s' => text s = c :: text s' /\ reach s s'
    | Err _ l => l = s /\ forall rest, text s <> c :: rest
    end.
  Proof.
    intros H. destruct (the_char_exact c s) as [H1 H2].
    destruct (text s) as [|d rest] eqn:E.
    - rewrite H2 in H by discriminate. injection H as <-. split; auto. discriminate.
    - destruct (N.eq_dec d c) as [->|N].
      + destruct (H1 _ eq_refl) as (s' & P & T & R). rewrite P in H. injection H as <-. now rewrite T.
      + rewrite H2 in H by congruence. injection H as <-. split; auto. congruence.
  Qed.

  (** *** Spaces *)
  Definition no_space (cs : list char) : Prop := forall rest, cs <> 32%N :: rest.

  Lemma spaces_loop n : forall (s : S) buf sp rest, text s = sp ++ rest -> Forall (eq 32%N) sp -> no_space rest ->
    length sp < n ->
    exists s', repeat_loop n (the_char 32%N) buf s = Ret (Ok (buf ++ map (fun _ => tt) sp, MkMiss tt) s') /\
      text s' = rest /\ reach s s'.
  Proof.
    induction n as [|n IH]; intros s buf sp rest T F N L; [lia|]. cbn [repeat_loop parse the_char].
    destruct sp as [|c sp].
    - cbn in T. subst rest. destruct (the_char_exact 32%N s) as [_ H]. rewrite (H N). cbn [bind].
      cbn [should_terminate pe_miss]. rewrite (rewind_anchor LR s s (reach_refl LR s)). cbn.
      exists s. rewrite app_nil_r. repeat split; auto. apply (reach_refl LR).
    - inversion F; subst. destruct (the_char_exact 32%N s) as [H _].
      destruct (H (sp ++ rest) T) as (s1 & P & T1 & R1). rewrite P. cbn [bind].
      destruct (IH s1 (buf ++ [tt]) sp rest T1) as (s2 & P2 & T2 & R2); auto; [cbn in L; lia|].
      exists s2. rewrite P2, <- app_assoc. split; auto. split; auto. eapply (reach_trans LR); eauto.
  Qed.

  Lemma split_spaces cs : exists sp rest, cs = sp ++ rest /\ Forall (eq 32%N) sp /\ no_space rest.
  Proof.
    induction cs as [|c cs (sp & rest & -> & F & N)].
    - exists [], []. repeat split; auto. intros r. discriminate.
    - destruct (N.eq_dec 32 c) as [<-|Nc].
      + exists (32%N :: sp), rest. auto.
      + exists [], (c :: sp ++ rest). repeat split; auto. intros r E. congruence.
  Qed.

  Lemma space_exact (s : S) sp rest : text s = sp ++ rest -> Forall (eq 32%N) sp -> no_space rest ->
    length (text s) < budget ->
    (sp = [] -> exists l, space_parse budget s = Ret (Err (MkMiss tt) l) /\ reach s l) /\
    (sp <> [] -> exists s', space_parse budget s = Ret (Ok tt s') /\ text s' = rest /\ reach s s').
  Proof.
    intros T F N L. rewrite T, app_length in L.
    destruct (spaces_loop budget s [] sp rest T F N) as (s' & P & T' & R); [lia|].
    assert (space_parse budget s = match sp with [] => Ret (Err (MkMiss tt) s') | _ => Ret (Ok tt s') end) as E.
    { unfold space_parse. cbn [parse AndThen]. unfold and_then_parse. cbn [parse Repeat]. unfold repeat_parse.
      rewrite P. cbn. now destruct sp. }
    split; intros H.
    - subst sp. eauto.
    - destruct sp; [congruence|]. eauto.
  Qed.

  Lemma spaces_unique sp rest sp' rest' : sp ++ rest = sp' ++ rest' ->
    Forall (eq 32%N) sp -> no_space rest -> Forall (eq 32%N) sp' -> no_space rest' -> sp = sp' /\ rest = rest'.
  Proof.
    revert sp'. induction sp as [|c sp IH]; intros [|c' sp'] E F N F' N'; cbn in E.
    - auto.
    - inversion F'; subst. exfalso. eapply N. reflexivity.
    - inversion F; subst. exfalso. eapply N'. reflexivity.
    - injection E as <- E. inversion F; inversion F'; subst. destruct (IH sp' E) as [-> ->]; auto.
  Qed.

  (** *** Operators *)
  Lemma op_head_text (s : S) : op_head (segments s) = match text s with [] => None | c :: _ => Some c end.
  Proof.
    unfold text. induction (segments s) as [|seg segs IH]; cbn; auto.
    destruct (chars seg); cbn; auto.
  Qed.

  Lemma op_exact (s : S) :
    (forall o rest, text s = symbol o :: rest ->
       exists s', op_parse s = Ret (Ok o s') /\ text s' = rest /\ reach s s') /\
    ((forall o rest, text s <> symbol o :: rest) -> op_parse s = Ret (Err (MkMiss tt) s)).
  Proof.
    unfold op_parse. rewrite op_head_text. split.
    - intros o rest H. rewrite H. destruct (advance_first s (symbol o) rest H) as (s' & P & T & R).
      exists s'. split; [|auto]. destruct o; cbn in *; rewrite P; reflexivity.
    - intros H. destruct (text s) as [|c rest]; auto.
      destruct (N.eqb_spec c 43) as [->|]; [exfalso; now apply (H Add rest)|].
      destruct (N.eqb_spec c 45) as [->|]; [exfalso; now apply (H Sub rest)|].
      destruct (N.eqb_spec c 42) as [->|]; [exfalso; now apply (H Mul rest)|].
      destruct (N.eqb_spec c 47) as [->|]; [exfalso; now apply (H Div rest)|]. reflexivity.
  Qed.

  Lemma symbol_dec cs : (exists o rest, cs = symbol o :: rest) \/ (forall o rest, cs <> symbol o :: rest).
  Proof.
    destruct cs as [|c rest]; [right; discriminate|].
    destruct (N.eq_dec c 43) as [->|N1]; [left; now exists Add, rest|].
    destruct (N.eq_dec c 45) as [->|N2]; [left; now exists Sub, rest|].
    destruct (N.eq_dec c 42) as [->|N3]; [left; now exists Mul, rest|].
    destruct (N.eq_dec c 47) as [->|N4]; [left; now exists Div, rest|].
    right. intros o r E. injection E as -> _. destruct o; cbn in *; congruence.
  Qed.

  Lemma symbol_no_space o rest : no_space (symbol o :: rest).
  Proof. intros r E. injection E as E _. now destruct o. Qed.
  Lemma symbol_inj o o' : symbol o = symbol o' -> o = o'.
  Proof. now destruct o, o'. Qed.

  Lemma spaced_op_parse (s : S) : parse (spaced_op budget) s =
    (r <- space_parse budget s ;;
     match r with
     | Err e l => Ret (Err (First (First e)) l)
     | Ok _ s1 =>
         r <- op_parse s1 ;;
         match r with
         | Err e l => Ret (Err (First (Last e)) l)
         | Ok o s2 =>
             r <- space_parse budget s2 ;;
             match r with Err e l => Ret (Err (Last e) l) | Ok _ s3 => Ret (Ok o s3) end
         end
     end).
  Proof.
    cbn [spaced_op parse Map]. unfold map_parse. cbn [parse Join]. unfold join_parse. cbn [parse Join]. unfold join_parse.
    cbn [parse space op closure].
    destruct (space_parse budget s) as [[[] s1|e l]| | |]; unfold done, fail; cbn [bind]; auto.
    destruct (op_parse s1) as [[o s2|e l]| | |]; unfold done, fail; cbn [bind]; auto.
    destruct (space_parse budget s2) as [[[] s3|e l]| | |]; unfold done, fail; cbn [bind]; auto.
  Qed.

  Definition op_follows (cs : list char) (o : Op) (rest : list char) : Prop :=
    exists sp sp', spaces sp /\ spaces sp' /\ cs = sp ++ [symbol o] ++ sp' ++ rest /\ no_space rest.

  Lemma spaced_op_exact (s : S) : length (text s) < budget ->
    (forall o rest, op_follows (text s) o rest ->
       exists s', parse (spaced_op budget) s = Ret (Ok o s') /\ text s' = rest /\ reach s s') /\
    ((forall o rest, ~ op_follows (text s) o rest) ->
       exists e l, parse (spaced_op budget) s = Ret (Err e l) /\ reach s l).
  Proof.
    intros L. rewrite spaced_op_parse. split.
    - intros o rest (sp & sp' & [N1 F1] & [N2 F2] & T & N).
      destruct (space_exact s sp _ T F1) as [_ H1]; auto; [apply symbol_no_space|].
      destruct (H1 N1) as (s1 & P1 & T1 & R1). rewrite P1. cbn [bind].
      destruct (op_exact s1) as [H2 _]. destruct (H2 o _ T1) as (s2 & P2 & T2 & R2). rewrite P2. cbn [bind].
      assert (length (text s2) < budget) as L2.
      { rewrite T, !app_length in L. rewrite T2, app_length. cbn in L. lia. }
      destruct (space_exact s2 sp' rest T2 F2 N L2) as [_ H3].
      destruct (H3 N2) as (s3 & P3 & T3 & R3). rewrite P3. cbn [bind].
      exists s3. split; auto. split; auto. eapply (reach_trans LR); [exact R1|]. eapply (reach_trans LR); eauto.
    - intros H. destruct (split_spaces (text s)) as (sp & rest & T & F & N).
      destruct (space_exact s sp rest T F N L) as [H1 H2].
      destruct sp as [|c sp0].
      { destruct (H1 eq_refl) as (l & P & R). rewrite P. cbn. eauto. }
      destruct H2 as (s1 & P1 & T1 & R1); [discriminate|]. rewrite P1. cbn [bind]. clear H1.
      destruct (op_exact s1) as [H2 H3]. destruct (symbol_dec (text s1)) as [(o & rest1 & E)|E].
      2:{ rewrite (H3 E). cbn. eauto. }
      destruct (H2 o _ E) as (s2 & P2 & T2 & R2). rewrite P2. cbn [bind].
      destruct (split_spaces (text s2)) as (sp' & rest' & T' & F' & N').
      assert (length (text s2) < budget) as L2.
      { rewrite T, <- T1, E, app_length in L. rewrite T2. cbn [length] in L. clear - L. unfold char in *. lia. }
      destruct (space_exact s2 sp' rest' T' F' N' L2) as [H4 H5].
      destruct sp' as [|c' sp'].
      { destruct (H4 eq_refl) as (l & P & R). rewrite P. cbn. do 2 eexists. split; eauto.
        eapply (reach_trans LR); [exact R1|]. eapply (reach_trans LR); eauto. }
      exfalso. apply (H o rest'). exists (c :: sp0), (c' :: sp'). repeat split; auto; try discriminate.
      rewrite T, <- T1, E, <- T2, T'. reflexivity.
  Qed.

  Lemma op_follows_unique cs o rest o' rest' : op_follows cs o rest -> op_follows cs o' rest' -> o = o' /\ rest = rest'.
  Proof.
    intros (sp & q & [N1 F1] & [N2 F2] & -> & N) (sp' & q' & [N1' F1'] & [N2' F2'] & E & N').
    apply spaces_unique in E; auto; try apply symbol_no_space. destruct E as [_ E].
    cbn in E. injection E as E1 E2. apply symbol_inj in E1. split; auto.
    now apply spaces_unique in E2.
  Qed.

  Lemma op_follows_dec cs : (exists o rest, op_follows cs o rest) \/ (forall o rest, ~ op_follows cs o rest).
  Proof.
    destruct (split_spaces cs) as (sp & rest & -> & F & N).
    assert (forall o r, op_follows (sp ++ rest) o r -> sp <> [] /\ exists sp', spaces sp' /\ rest = [symbol o] ++ sp' ++ r /\ no_space r) as Inv.
    { intros o r (sp0 & sp' & [N1 F1] & S2 & E & Nr). apply spaces_unique in E; auto; [|apply symbol_no_space].
      destruct E as [-> ->]. split; auto. exists sp'. auto. }
    destruct sp as [|c sp]; [right; intros o r H; now destruct (Inv _ _ H)|].
    destruct (symbol_dec rest) as [(o & rest1 & ->)|E].
    2:{ right. intros o r H. destruct (Inv _ _ H) as (_ & sp' & _ & E' & _). eapply E. exact E'. }
    destruct (split_spaces rest1) as (sp' & rest' & -> & F' & N').
    destruct sp' as [|c' sp'].
    - right. intros o' r H. destruct (Inv _ _ H) as (_ & sp' & [Q1 Q2] & E' & N''). cbn in E'. injection E' as _ E'.
      change (rest' = sp' ++ r) in E'. destruct sp'; [congruence|]. inversion Q2; subst. now apply (N' (sp' ++ r)).
    - left. exists o, rest'. exists (c :: sp), (c' :: sp'). repeat split; auto; discriminate.
  Qed.

  Lemma spaced_op_sound (s : S) r : length (text s) < budget -> parse (spaced_op budget) s = r ->
    (exists o s', r = Ret (Ok o s') /\ op_follows (text s) o (text s') /\ reach s s') \/
    (exists e l, r = Ret (Err e l) /\ reach s l /\ forall o rest, ~ op_follows (text s) o rest).
  Proof.
    intros L <-. destruct (spaced_op_exact s L) as [H1 H2].
    destruct (op_follows_dec (text s)) as [(o & rest & H)|H].
    - left. destruct (H1 _ _ H) as (s' & P & T & R). exists o, s'. rewrite T. auto.
    - right. destruct (H2 H) as (e & l & P & R). exists e, l. auto.
  Qed.

  (** *** Integers *)
  Definition no_digit (cs : list char) : Prop := forall c rest, cs = c :: rest -> ~ digit c.

  Lemma integer_loop_spec segs : forall buf k,
    exists ds rest, concat (map chars segs) = ds ++ rest /\ Forall digit ds /\
      integer_loop segs buf k = (buf ++ ds, k + chars_len ds) /\
      ((forall a b, segs = a ++ Str [] :: b -> concat (map chars b) = []) -> no_digit rest).
  Proof.
    induction segs as [|seg segs IH]; intros buf k; cbn.
    - exists [], []. rewrite (app_nil_r buf). split; [reflexivity|]. split; [constructor|].
      split; [unfold chars_len; cbn; f_equal; lia|]. intros _ c r E. discriminate.
    - destruct (take_while_split is_ascii_digit (chars seg)) as (r & E & F & H).
      remember (take_while is_ascii_digit (chars seg)) as ds eqn:Eds.
      assert (Forall digit ds) as Fd. { eapply Forall_impl; [|exact F]. intros c. apply digit_spec. }
      destruct ds as [|d ds].
      + exists [], (chars seg ++ concat (map chars segs)). rewrite (app_nil_r buf).
        split; [reflexivity|]. split; [constructor|]. split; [unfold chars_len; cbn; f_equal; lia|].
        intros G c q Q D. rewrite E in Q. cbn in Q. destruct r as [|c' r].
        * assert (seg = Str []) as -> by (destruct seg; cbn in *; congruence).
          rewrite (G [] segs eq_refl) in Q. discriminate.
        * injection Q as -> _. apply digit_spec in D. congruence.
      + cbn zeta. unfold str_len. destruct (Nat.ltb_spec (chars_len (d :: ds)) (chars_len (chars seg))) as [Lt|Ge].
        * exists (d :: ds), (r ++ concat (map chars segs)). rewrite E at 1. rewrite <- app_assoc.
          split; [reflexivity|]. split; auto. split; [reflexivity|]. intros _ c q Q D. destruct r as [|c' r].
          -- rewrite E, app_nil_r in Lt. lia.
          -- injection Q as -> _. apply digit_spec in D. congruence.
        * assert (r = []) as -> by (apply chars_len_zero; rewrite E, chars_len_app in Ge; lia).
          rewrite app_nil_r in E.
          destruct (IH (buf ++ d :: ds) (k + chars_len (d :: ds))) as (ds' & rest & E' & F' & L & G).
          exists ((d :: ds) ++ ds'), rest. rewrite E, E', L, chars_len_app, <- !app_assoc.
          split; [reflexivity|]. split; [|split].
          -- apply Forall_app; auto.
          -- f_equal. lia.
          -- intros G'. apply G. intros a b Eab. apply (G' (seg :: a) b). cbn. now rewrite Eab.
  Qed.

  Lemma integer_exact (s : S) :
    exists ds rest, text s = ds ++ rest /\ Forall digit ds /\ (no_gaps s -> no_digit rest) /\
      (ds = [] -> integer_parse usize_max s = Ret (Err (MkMiss tt) s)) /\
      (forall n, numeral ds n ->
         (n <= usize_max -> exists s', integer_parse usize_max s = Ret (Ok n s') /\ text s' = rest /\ reach s s') /\
         (usize_max < n -> integer_parse usize_max s = Panic)).
  Proof.
    destruct (integer_loop_spec (segments s) [] 0) as (ds & rest & E & F & L & G).
    exists ds, rest. split; [exact E|]. split; auto. split; [exact G|].
    unfold integer_parse. rewrite L. cbn [app plus]. split.
    - intros ->. reflexivity.
    - intros n N. assert (ds <> []) as Nd by (apply numeral_value in N; tauto).
      destruct (Nat.eqb_spec (chars_len ds) 0) as [Z|Z]; [apply chars_len_zero in Z; congruence|].
      destruct (radix_spec usize_max ds n N) as [R1 R2]. split; intros B.
      + rewrite (R1 B). cbn [bind]. destruct (lp_advance LP s ds rest E) as (s' & P & T & R). rewrite P. exists s'. auto.
      + rewrite (R2 B). reflexivity.
  Qed.

  Lemma numeral_exists ds : Forall digit ds -> ds <> [] -> exists n, numeral ds n.
  Proof. intros F N. eexists. apply numeral_value. eauto. Qed.

  Lemma digits_split_unique a x b y : a ++ x = b ++ y -> Forall digit a -> Forall digit b -> no_digit x -> no_digit y ->
    a = b /\ x = y.
  Proof.
    revert b. induction a as [|c a IH]; intros [|d b] E Fa Fb Nx Ny; cbn in E.
    - auto.
    - inversion Fb; subst. exfalso. eapply Nx; eauto.
    - inversion Fa; subst. exfalso. eapply Ny; eauto.
    - injection E as <- E. inversion Fa; inversion Fb; subst. destruct (IH b E) as [-> ->]; auto.
  Qed.

  (** *** A one-character atom *)
  Lemma split_chars_1 d ds : split_chars (d :: ds) 1 = if len_utf8 d =? 1 then Some ([d], ds) else None.
  Proof.
    cbn [split_chars]. change (1 =? 0) with false. cbn [negb].
    pose proof (len_utf8_pos d). destruct (Nat.leb_spec (len_utf8 d) 1), (Nat.eqb_spec (len_utf8 d) 1); try lia; auto.
    replace (1 - len_utf8 d) with 0 by lia. destruct ds; reflexivity.
  Qed.

  Lemma atom_one c (s : S) : len_utf8 c = 1 ->
    match text s with
    | [] => atom_parse (Str [c]) s = Ret (Err (MkMiss tt) s)
    | d :: rest =>
        if (d =? c)%N then exists s', atom_parse (Str [c]) s = Ret (Ok tt s') /\ text s' = rest /\ reach s s'
        else atom_parse (Str [c]) s = if len_utf8 d =? 1 then Ret (Err (MkMiss tt) s) else Panic
    end.
  Proof.
    intros Lc. unfold atom_parse. pose proof (advance_first s) as Hadv. unfold text at 1 in Hadv. unfold text at 1.
    assert (str_len (Str [c]) = 1) as Ls by (unfold str_len; cbn [chars]; rewrite chars_len_cons, Lc; reflexivity).
    induction (segments s) as [|seg segs IH]; [reflexivity|].
    cbn [atom_loop map concat seg_len str_segment]. rewrite Ls.
    destruct seg as [[|d ds]]; cbn [chars].
    - replace (str_len (Str [])) with 0 by reflexivity. change (1 <=? 0) with false. cbn [seg_split_at str_segment].
      unfold str_split_at. cbn [chars].
      replace (split_chars [c] 0) with (Some (@nil char, [c])) by reflexivity. cbn [bind seg_eqb str_segment].
      unfold str_eqb. cbn [chars list_eqb negb]. cbn [app]. apply IH. exact Hadv.
    - pose proof (len_utf8_pos d) as Pd.
      destruct (Nat.leb_spec 1 (str_len (Str (d :: ds)))) as [_|Bad].
      2:{ exfalso. unfold str_len in Bad. cbn [chars] in Bad. rewrite chars_len_cons in Bad. lia. }
      cbn [seg_split_at str_segment]. unfold str_split_at. cbn [chars]. rewrite split_chars_1.
      cbn [app]. destruct (N.eqb_spec d c) as [->|Ne].
      + destruct (Nat.eqb_spec (len_utf8 c) 1) as [_|]; [|congruence]. cbn [bind seg_eqb str_segment]. unfold str_eqb. cbn [chars list_eqb].
        rewrite N.eqb_refl. cbn [andb]. cbn [map concat chars app] in Hadv.
        destruct (Hadv c _ eq_refl) as (s' & P & T & R). rewrite Lc in P. rewrite P. exists s'. auto.
      + destruct (Nat.eqb_spec (len_utf8 d) 1) as [_|_]; [|reflexivity].
        cbn [bind seg_eqb str_segment]. unfold str_eqb. cbn [chars list_eqb].
        destruct (N.eqb_spec d c) as [->|_]; [congruence|]. reflexivity.
  Qed.

  Lemma atom_one_sound c (s : S) r : len_utf8 c = 1 -> atom_parse (Str [c]) s = Ret r ->
    match r with
    | Ok _ s' => text s = c :: text s' /\ reach s s'
    | Err _ l => l = s /\ forall rest, text s <> c :: rest
    end.
  Proof.
    intros Lc P. pose proof (atom_one c s Lc) as H. destruct (text s) as [|d rest].
    - rewrite H in P. injection P as <-. split; auto. discriminate.
    - destruct (N.eqb_spec d c) as [->|Ne].
      + destruct H as (s' & P' & T & R). rewrite P' in P. injection P as <-. now rewrite T.
      + rewrite H in P. destruct (len_utf8 d =? 1); [|discriminate]. injection P as <-. split; auto. congruence.
  Qed.

  (** *** Terms *)
  Notation opening := (atom_parse (Str [40%N])).
  Notation closing := (atom_parse (Str [41%N])).

  Lemma integer_err (s : S) e l : integer_parse usize_max s = Ret (Err e l) -> l = s.
  Proof.
    destruct (integer_exact s) as (ds & rest & T & F & G & H1 & H2). intros P.
    destruct ds as [|d ds]; [rewrite (H1 eq_refl) in P; congruence|].
    destruct (numeral_exists (d :: ds) F) as [n N]; [discriminate|]. destruct (H2 n N) as [K1 K2].
    destruct (le_lt_dec n usize_max) as [L|L].
    - destruct (K1 L) as (s' & P' & _). congruence.
    - rewrite (K2 L) in P. discriminate.
  Qed.

  Lemma term_parse_eq (ex : pfun S Expr (Miss unit)) (s : S) : term_parse usize_max ex s =
    (r <- integer_parse usize_max s ;;
     match r with
     | Ok n s1 => Ret (Ok (Integer n) s1)
     | Err _ _ =>
         r <- opening s ;;
         match r with
         | Err _ l => Ret (Err (MkMiss tt) l)
         | Ok _ s1 =>
             r <- ex s1 ;;
             match r with
             | Err _ l => Ret (Err (MkMiss tt) l)
             | Ok e s2 =>
                 r <- closing s2 ;;
                 match r with
                 | Err _ l => Ret (Err (MkMiss tt) l)
                 | Ok _ s3 => Ret (Ok (Parenthesized e) s3)
                 end
             end
         end
     end).
  Proof.
    unfold term_parse. cbn [parse MapErr]. unfold map_err_parse. cbn [parse Map]. unfold map_parse. cbn [parse Or].
    unfold or_parse. cbn [parse integer closure].
    destruct (integer_parse usize_max s) as [[n s1|e l]| | |] eqn:P; cbn [bind done]; auto.
    cbn [should_terminate pe_miss negb]. rewrite (integer_err _ _ _ P).
    rewrite (rewind_anchor LR s s (reach_refl LR s)). cbn [bind parse Map]. unfold map_parse. cbn [parse Join].
    unfold join_parse. cbn [parse Join]. unfold join_parse. cbn [parse atom closure].
    destruct (opening s) as [[u s1|e1 l1]| | |]; unfold done, fail; cbn [bind should_terminate pe_miss pe_either negb]; auto.
    destruct (ex s1) as [[ee s2|e2 l2]| | |]; unfold done, fail; cbn [bind should_terminate pe_miss pe_either negb]; auto.
    destruct (closing s2) as [[u' s3|e3 l3]| | |]; unfold done, fail; cbn [bind should_terminate pe_miss pe_either negb]; auto.
  Qed.

  Lemma expr_parse_eq d (s : S) : expr_parse usize_max overflow_checks budget (Datatypes.S d) s =
    (r <- parse (BinExpr expr_from_term expr_from_bin usize_max overflow_checks budget
                   (closure (term_parse usize_max (expr_parse usize_max overflow_checks budget d)))
                   (spaced_op budget)) s ;;
     match r with
     | Ok (e, _) s' => Ret (Ok e s')
     | Err _ l => Ret (Err (MkMiss tt) l)
     end).
  Proof.
    cbn [expr_parse]. cbn [parse Boxed]. unfold boxed_parse. cbn [parse MapErr]. unfold map_err_parse.
    cbn [parse Map]. unfold map_parse.
    match goal with |- context [parse ?b s] => destruct (parse b s) as [[[e er] s'|e l]| | |] end; reflexivity.
  Qed.

  (** *** Only moving forward *)
  Lemma the_char_forward c : forward reach (the_char_parse (SQ := SQ) c).
  Proof.
    intros s r H. pose proof (the_char_sound c s r H) as K. destruct r; cbn; destruct K; subst; auto.
    apply (reach_refl LR).
  Qed.
  Lemma atom_one_forward c : len_utf8 c = 1 -> forward reach (atom_parse (SQ := SQ) (Str [c])).
  Proof.
    intros Lc s r H. pose proof (atom_one_sound c s r Lc H) as K. destruct r; cbn; destruct K; subst; auto.
    apply (reach_refl LR).
  Qed.
  Lemma op_forward : forward reach (op_parse (SQ := SQ)).
  Proof.
    intros s r H. destruct (op_exact s) as [H1 H2]. destruct (symbol_dec (text s)) as [(o & rest & E)|E].
    - destruct (H1 _ _ E) as (s' & P & _ & R). rewrite P in H. injection H as <-. exact R.
    - rewrite (H2 E) in H. injection H as <-. apply (reach_refl LR).
  Qed.
  Lemma integer_forward : forward reach (integer_parse (SQ := SQ) usize_max).
  Proof.
    intros s r P. destruct (integer_exact s) as (ds & rest & T & F & G & H1 & H2).
    destruct ds as [|d ds]; [rewrite (H1 eq_refl) in P; injection P as <-; apply (reach_refl LR)|].
    destruct (numeral_exists (d :: ds) F) as [n N]; [discriminate|]. destruct (H2 n N) as [K1 K2].
    destruct (le_lt_dec n usize_max) as [L|L].
    - destruct (K1 L) as (s' & P' & _ & R). rewrite P' in P. injection P as <-. exact R.
    - rewrite (K2 L) in P. discriminate.
  Qed.
  Lemma space_forward : forward reach (space_parse (SQ := SQ) budget).
  Proof. apply (and_then_forward (reach := reach)). apply (repeat_forward LR). apply the_char_forward. Qed.
  Lemma spaced_op_forward : forward reach (parse (spaced_op (SQ := SQ) budget)).
  Proof.
    apply (map_forward (reach := reach)). apply (join_forward LR); [apply (join_forward LR)|].
    - exact space_forward.
    - exact op_forward.
    - exact space_forward.
  Qed.
  Lemma term_forward (ex : pfun S Expr (Miss unit)) : forward reach ex -> forward reach (term_parse usize_max ex).
  Proof.
    intros F. apply (map_err_forward (reach := reach)). apply (map_forward (reach := reach)). apply (or_forward LR).
    - exact integer_forward.
    - apply (map_forward (reach := reach)). apply (join_forward LR); [apply (join_forward LR)|].
      + now apply atom_one_forward.
      + exact F.
      + now apply atom_one_forward.
  Qed.
  Lemma expr_forward d : forward reach (expr_parse usize_max overflow_checks budget d).
  Proof.
    induction d as [|d IH]; [intros s r H; discriminate|].
    intros s r. cbn [expr_parse]. revert s r. apply (map_err_forward (reach := reach)).
    apply (map_forward (reach := reach)). apply (bin_forward LR).
    - now apply term_forward.
    - exact spaced_op_forward.
  Qed.

  (** *** Soundness, for a given depth *)
  Notation ex d := (expr_parse usize_max overflow_checks budget d).
  Notation tm d := (term_parse usize_max (ex d)).
  Notation pair_ d := (sequence (behaves (parse (spaced_op budget))) (behaves (parse (closure (tm d))))).
  Notation bin d := (BinExpr expr_from_term expr_from_bin usize_max overflow_checks budget (closure (tm d)) (spaced_op budget)).
  Context (big : 2 < usize_max).

  Lemma op_in_range (s : S) o r : parse (spaced_op budget) s = Ret (Ok o r) -> in_range usize_max o.
  Proof. intros _ _. destruct o; cbn; lia. Qed.

  Lemma no_digit_open rest : no_digit (40%N :: rest).
  Proof. intros c r E D. injection E as <- _. unfold digit in D. lia. Qed.

  Lemma term_sound d (s : S) t s' :
    (forall s e s', length (text s) < budget -> ex d s = Ret (Ok e s') ->
       exists cs, text s = cs ++ text s' /\ writes e cs /\ fits usize_max e) ->
    length (text s) < budget -> tm d s = Ret (Ok t s') ->
    exists ct, text s = ct ++ text s' /\ writes (ETerm t) ct /\ term_fits usize_max t.
  Proof.
    intros HE L P. rewrite term_parse_eq in P.
    destruct (integer_exact s) as (ds & rest & T & F & G & H1 & H2).
    destruct ds as [|c ds].
    - rewrite (H1 eq_refl) in P. cbn [bind] in P.
      destruct (opening s) as [[u s1|e1 l1]| | |] eqn:P1; cbn [bind] in P; try discriminate.
      destruct (ex d s1) as [[e s2|e2 l2]| | |] eqn:P2; cbn [bind] in P; try discriminate.
      destruct (closing s2) as [[u' s3|e3 l3]| | |] eqn:P3; cbn [bind] in P; try discriminate.
      injection P as <- <-.
      apply (atom_one_sound 40%N s _ eq_refl) in P1. destruct P1 as [T1 _].
      apply (atom_one_sound 41%N s2 _ eq_refl) in P3. destruct P3 as [T3 _].
      destruct (HE s1 e s2) as (cs & T2 & W & B); auto.
      { rewrite T1 in L. cbn in L. unfold char in *. lia. }
      exists ([40%N] ++ cs ++ [41%N]). split; [|split; [now constructor|exact B]].
      rewrite T1, T2, T3. cbn. rewrite <- app_assoc. reflexivity.
    - destruct (numeral_exists (c :: ds) F) as [n N]; [discriminate|]. destruct (H2 n N) as [K1 K2].
      destruct (le_lt_dec n usize_max) as [B|B]; [|rewrite (K2 B) in P; discriminate].
      destruct (K1 B) as (s1 & P1 & T1 & _). rewrite P1 in P. cbn [bind] in P. injection P as <- <-.
      exists (c :: ds). rewrite T1. repeat split; auto. now constructor.
  Qed.

  Lemma op_follows_text o (s s' : S) : op_follows (text s) o (text s') ->
    exists sp sp', spaces sp /\ spaces sp' /\ text s = sp ++ [symbol o] ++ sp' ++ text s'.
  Proof. intros (sp & sp' & H1 & H2 & H3 & _). eauto. Qed.

  Lemma chain_sound d (m : S) ps r :
    (forall s e s', length (text s) < budget -> ex d s = Ret (Ok e s') ->
       exists cs, text s = cs ++ text s' /\ writes e cs /\ fits usize_max e) ->
    many (pair_ d) m ps r -> length (text m) < budget ->
    exists cps, Forall2 pair_text ps cps /\ text m = concat cps ++ text r /\
      Forall (fun p => term_fits usize_max (snd p)) ps.
  Proof.
    intros HE M. induction M as [s|s [o t] m ps r Hp M IH]; intros L.
    - exists []. repeat split; auto.
    - inversion Hp as [s0 x q y r0 Ho Ht| | | | | |]; subst. cbn in Ho, Ht.
      destruct (spaced_op_sound s _ L Ho) as [(o' & s' & E & F & _)|(e & l & E & _)]; [|discriminate].
      injection E as <- <-. apply op_follows_text in F. destruct F as (sp & sp' & S1 & S2 & T1).
      assert (length (text q) < budget) as Lq by (rewrite T1, !app_length in L; unfold char in *; lia).
      destruct (term_sound d q t m HE Lq Ht) as (ct & T2 & W & B).
      assert (length (text m) < budget) as Lm by (rewrite T2, !app_length in Lq; unfold char in *; lia).
      destruct (IH Lm) as (cps & F2 & T3 & B').
      exists ((sp ++ [symbol o] ++ sp' ++ ct) :: cps). split; [|split].
      + constructor; auto. exists sp, sp', ct. auto.
      + rewrite T1, T2, T3. cbn [concat]. rewrite <- !app_assoc. reflexivity.
      + constructor; auto.
  Qed.

  Lemma term_is_forward d : forward reach (parse (closure (tm d))).
  Proof. apply term_forward. apply expr_forward. Qed.

  Lemma bin_ok d (s : S) e er s' : parse (bin d) s = Ret (Ok (e, er) s') ->
    exists t m ps (tr : etree), tm d s = Ret (Ok t m) /\ many (pair_ d) m ps s' /\ pair_ d s' (Missed er) /\
      reading tr = (t, ps) /\ respects tr /\ e = ebuild tr.
  Proof.
    intros P.
    pose proof (bin_sound LR expr_from_term expr_from_bin usize_max overflow_checks (closure (tm d)) (spaced_op budget)
      (term_is_forward d) spaced_op_forward op_in_range budget s (Succ (e, er) s') P ltac:(discriminate)) as Ho.
    inversion Ho; subst. match goal with H : repetition _ _ _ |- _ => inversion H; subst end.
    exists t, m, ps, tr. auto 8.
  Qed.

  Lemma expr_sound d : forall (s : S) e s', length (text s) < budget -> ex d s = Ret (Ok e s') ->
    exists cs, text s = cs ++ text s' /\ writes e cs /\ fits usize_max e.
  Proof.
    induction d as [|d IH]; intros s e s' L P; [discriminate|].
    rewrite expr_parse_eq in P.
    destruct (parse (bin d) s) as [[[e0 er] s0|er l]| | |] eqn:Pb; cbn [bind] in P; try discriminate.
    injection P as -> ->. apply bin_ok in Pb. destruct Pb as (t & m & ps & tr & P1 & M & _ & R & Rs & ->).
    destruct (term_sound d s t m IH L P1) as (ct & T1 & W & B).
    assert (length (text m) < budget) as Lm by (rewrite T1, !app_length in L; unfold char in *; lia).
    destruct (chain_sound d m ps s' IH M Lm) as (cps & F & T2 & B').
    exists (ct ++ concat cps). split; [rewrite T1, T2; apply app_assoc|]. split.
    - eapply chain_writes; eauto.
    - apply (fits_build usize_max tr t ps R). auto.
  Qed.

  (** *** Completeness *)
  Context (NG : forall s : S, no_gaps s).

  Definition stops (t : Term) (rest : list char) : Prop :=
    match t with Integer _ => no_digit rest | Parenthesized _ => True end.

  Definition expr_ok d n := forall (s : S) e cs rest, text s = cs ++ rest -> writes e cs -> closed rest ->
    length cs < n -> length (text s) < budget ->
    (fits usize_max e -> exists s', ex d s = Ret (Ok e s') /\ text s' = rest /\ reach s s') /\
    (~ fits usize_max e -> ex d s = Panic).

  Lemma term_ok d n : expr_ok d n -> forall (s : S) t ct rest, text s = ct ++ rest -> writes (ETerm t) ct ->
    stops t rest -> length ct <= n -> length (text s) < budget ->
    (term_fits usize_max t -> exists s', tm d s = Ret (Ok t s') /\ text s' = rest /\ reach s s') /\
    (~ term_fits usize_max t -> tm d s = Panic).
  Proof.
    intros HE s t ct rest T W St L Lb. rewrite term_parse_eq.
    destruct (integer_exact s) as (ds & rest0 & T0 & F & G & H1 & H2). specialize (G (NG s)).
    inversion W as [n0 cs N|e cs We|]; subst.
    - assert (Forall digit ct) as Fct by (apply numeral_value in N; tauto).
      destruct (digits_split_unique ds rest0 ct rest) as [-> ->]; auto; [congruence|].
      destruct (H2 _ N) as [K1 K2]. split; intros B.
      + destruct (K1 B) as (s' & P & T' & R). rewrite P. cbn [bind]. eauto.
      + cbn in B. rewrite K2 by lia. reflexivity.
    - assert (ds = []) as ->.
      { destruct ds as [|c ds]; auto. rewrite T0 in T. cbn in T. injection T as -> _. inversion F; subst.
        exfalso. match goal with H : digit 40%N |- _ => exact (no_digit_open [] _ _ eq_refl H) end. }
      rewrite (H1 eq_refl). cbn [bind].
      pose proof (atom_one 40%N s eq_refl) as A1. rewrite T in A1. cbn [app] in A1. rewrite N.eqb_refl in A1.
      destruct A1 as (s1 & P1 & T1 & R1). change (opening s = Ret (Ok tt s1)) in P1. rewrite P1. cbn [bind].
      rewrite <- app_assoc in T1.
      assert (length (text s1) < budget) as L1.
      { rewrite T in Lb. rewrite T1. rewrite !app_length in *. cbn in *. unfold char in *. lia. }
      destruct (HE s1 e cs ([41%N] ++ rest) T1 We) as [E1 E2].
      { cbn. split; [unfold digit; lia|discriminate]. }
      { rewrite !app_length in L. cbn in L. lia. }
      { exact L1. }
      split; intros B.
      + destruct (E1 B) as (s2 & P2 & T2 & R2). rewrite P2. cbn [bind].
        pose proof (atom_one 41%N s2 eq_refl) as A2. rewrite T2 in A2. cbn [app] in A2. rewrite N.eqb_refl in A2.
        destruct A2 as (s3 & P3 & T3 & R3). change (closing s2 = Ret (Ok tt s3)) in P3. rewrite P3. cbn [bind]. exists s3. split; auto. split; auto.
        eapply (reach_trans LR); [exact R1|]. eapply (reach_trans LR); eauto.
      + rewrite (E2 B). reflexivity.
  Qed.

  Lemma pair_text_space p cp : pair_text p cp -> exists cp', cp = 32%N :: cp'.
  Proof.
    intros (sp & sp' & ct & [N F] & _ & _ & ->). destruct sp as [|c sp]; [congruence|]. inversion F; subst.
    cbn. eauto.
  Qed.

  Lemma space_not_digit rest : no_digit (32%N :: rest).
  Proof. intros c r E D. injection E as <- _. unfold digit in D. lia. Qed.

  Lemma stops_of_no_digit t rest : no_digit rest -> stops t rest.
  Proof. now destruct t. Qed.

  Lemma term_no_space t ct rest : writes (ETerm t) ct -> no_space (ct ++ rest).
  Proof.
    intros W. apply term_head in W. destruct W as (c & ct' & -> & H). intros r E. cbn in E. injection E as -> _.
    destruct H as [H|H]; [unfold digit in H; lia|discriminate].
  Qed.

  Definition chain_stops (t : Term) (ps : list (Op * Term)) (rest : list char) : Prop :=
    stops (last (map snd ps) t) rest.

  Lemma chain_ok d n : expr_ok d n -> forall ps cps, Forall2 pair_text ps cps ->
    forall (m : S) rest t, text m = concat cps ++ rest -> chain_stops t ps rest ->
    length (concat cps) <= n -> length (text m) < budget ->
    (Forall (fun p => term_fits usize_max (snd p)) ps ->
       exists r, many (pair_ d) m ps r /\ text r = rest /\ reach m r) /\
    (~ Forall (fun p => term_fits usize_max (snd p)) ps ->
       exists ps1 r1, many (pair_ d) m ps1 r1 /\ length ps1 < length ps /\ pair_ d r1 (Crash CPanic)).
  Proof.
    intros HE. induction 1 as [|[o t] cp ps cps Hp F IH]; intros m rest t0 T St L Lb.
    - split; [|intros H; now destruct H]. intros _. exists m. split; [constructor|]. split; auto. apply (reach_refl LR).
    - destruct Hp as (sp & sp' & ct & S1 & S2 & W & ->). cbn [fst snd] in *.
      cbn [concat] in T, L. rewrite <- !app_assoc in T.
      assert (op_follows (text m) o (ct ++ concat cps ++ rest)) as Fo.
      { exists sp, sp'. repeat split; auto; try apply S1; try apply S2. eapply term_no_space; eauto. }
      destruct (spaced_op_exact m Lb) as [H1 _]. destruct (H1 _ _ Fo) as (q & Po & Tq & Rq).
      assert (stops t (concat cps ++ rest)) as Stt.
      { destruct F as [|p cp ps cps Hp F].
        - exact St.
        - apply stops_of_no_digit. apply pair_text_space in Hp. destruct Hp as [cp' ->]. apply space_not_digit. }
      assert (length (text q) < budget) as Lq.
      { rewrite T, !app_length in Lb. rewrite Tq, !app_length. unfold char in *. lia. }
      rewrite !app_length in L.
      destruct (term_ok d n HE q t ct _ Tq W Stt) as [K1 K2]; auto; [unfold char in *; lia|].
      assert (chain_stops t ps rest) as St'.
      { assert (forall l : list Term, l <> [] -> last l t0 = last l t) as Hl.
        { induction l as [|x [|y l] IHl]; intros Hn; [congruence|reflexivity|]. cbn in *. apply IHl. discriminate. }
        unfold chain_stops in *. destruct ps as [|p ps]; [exact St|].
        rewrite <- Hl by discriminate. exact St. }
      destruct (term_fits_dec usize_max t) as [B|B].
      + destruct (K1 B) as (r1 & Pt & Tr & Rr).
        assert (length (text r1) < budget) as Lr by (rewrite Tq, !app_length in Lq; rewrite Tr, app_length; unfold char in *; lia).
        destruct (IH r1 rest t Tr St') as [I1 I2]; auto; [unfold char in *; lia|].
        assert (pair_ d m (Succ (o, t) r1)) as Pp by (eapply sq_ok; cbn; eauto).
        split; intros Fa.
        * inversion Fa; subst. destruct (I1 H3) as (r & M & T' & R). exists r. split; [econstructor; eauto|]. split; auto.
          eapply (reach_trans LR); [exact Rq|]. eapply (reach_trans LR); eauto.
        * destruct I2 as (ps1 & r2 & M & Ll & C); [intros K; apply Fa; constructor; auto|].
          exists ((o, t) :: ps1), r2. split; [econstructor; eauto|]. split; auto. cbn. lia.
      + split; intros Fa.
        * inversion Fa; subst. exfalso; auto.
        * exists [], m. split; [constructor|]. split; [cbn; lia|]. eapply sq_crash2; cbn; eauto.
  Qed.

  Lemma pairs_length ps cps : Forall2 pair_text ps cps -> length ps <= length (concat cps).
  Proof.
    induction 1 as [|p cp ps cps Hp _ IH]; cbn; [lia|]. apply pair_text_space in Hp. destruct Hp as [cp' ->].
    rewrite app_length. cbn. lia.
  Qed.

  (** An expression at the start of the text, whatever follows. *)
  Lemma expr_start d n (s : S) t ct ps cps rest : expr_ok d n ->
    text s = ct ++ concat cps ++ rest -> writes (ETerm t) ct -> Forall2 pair_text ps cps ->
    chain_stops t ps rest -> length (ct ++ concat cps) <= n -> length (text s) < budget ->
    (term_fits usize_max t /\ Forall (fun p => term_fits usize_max (snd p)) ps ->
       exists m r, tm d s = Ret (Ok t m) /\ many (pair_ d) m ps r /\ text r = rest /\ reach s r) /\
    (~ (term_fits usize_max t /\ Forall (fun p => term_fits usize_max (snd p)) ps) ->
       ex (Datatypes.S d) s = Panic).
  Proof.
    intros HE T W F St L Lb. rewrite app_length in L.
    assert (stops t (concat cps ++ rest)) as Stt.
    { destruct F as [|p cp ps cps Hp F].
      - exact St.
      - apply stops_of_no_digit. apply pair_text_space in Hp. destruct Hp as [cp' ->]. apply space_not_digit. }
    destruct (term_ok d n HE s t ct _ T W Stt) as [K1 K2]; auto; [lia|].
    destruct (term_fits_dec usize_max t) as [B|B].
    - destruct (K1 B) as (m & Pt & Tm & Rm).
      assert (length (text m) < budget) as Lm by (rewrite T, app_length in Lb; rewrite Tm; unfold char in *; lia).
      destruct (chain_ok d n HE ps cps F m rest t Tm St) as [C1 C2]; auto; [lia|].
      split.
      + intros [_ B']. destruct (C1 B') as (r & M & Tr & Rr). exists m, r. repeat split; auto.
        eapply (reach_trans LR); eauto.
      + intros B'. destruct C2 as (ps1 & r1 & M & Ll & Cr); [tauto|].
        pose proof (pairs_length ps cps F) as Lp.
        destruct (bin_after_term LR expr_from_term expr_from_bin usize_max overflow_checks (closure (tm d)) (spaced_op budget)
          (term_is_forward d) spaced_op_forward op_in_range s t m ps1 r1 (Crash CPanic) budget Pt M) as (tr & _ & _ & Pb); auto.
        { rewrite Tm, app_length in Lm. unfold char in *. lia. }
        { discriminate. }
        cbn in Pb. rewrite expr_parse_eq. cbn [parse BinExpr]. rewrite Pb. reflexivity.
    - split; [tauto|]. intros _. rewrite expr_parse_eq. cbn [parse BinExpr]. unfold bin_expr_parse, parse_impl.
      cbn [parse closure]. rewrite (K2 B). reflexivity.
  Qed.

  Lemma closed_not_op rest : closed rest -> forall o r, ~ op_follows rest o r.
  Proof.
    intros C o r (sp & sp' & [N F] & _ & -> & _). destruct sp as [|c sp]; [congruence|]. inversion F; subst.
    cbn in C. now destruct C.
  Qed.

  Lemma closed_no_digit rest : closed rest -> no_digit rest.
  Proof. intros C c r -> D. cbn in C. tauto. Qed.

  Lemma expr_complete d : expr_ok d d.
  Proof.
    induction d as [|d IH]; intros s e cs rest T W C L Lb; [lia|].
    apply writes_chain in W. destruct W as (tr & t & ct & ps & cps & -> & Rs & R & W & F & ->).
    rewrite <- app_assoc in T.
    destruct (expr_start d d s t ct ps cps rest IH T W F) as [H1 H2]; auto.
    { apply stops_of_no_digit. now apply closed_no_digit. }
    { lia. }
    rewrite (fits_build usize_max tr t ps R). split; auto.
    intros B. destruct (H1 B) as (m & r & Pt & M & Tr & Rr). exists r. split; [|auto].
    assert (length (text r) < budget) as Lr.
    { rewrite T, !app_length in Lb. rewrite Tr. unfold char in *. lia. }
    destruct (spaced_op_exact r Lr) as [_ K]. destruct K as (er & l & Po & _).
    { rewrite Tr. now apply closed_not_op. }
    destruct (bin_after_term LR expr_from_term expr_from_bin usize_max overflow_checks (closure (tm d)) (spaced_op budget)
          (term_is_forward d) spaced_op_forward op_in_range s t m ps r (Missed (First er)) budget Pt M) as (tr' & Rs' & R' & Pb).
    { pose proof (pairs_length ps cps F). rewrite T, !app_length in Lb. unfold char in *. lia. }
    { apply sq_miss1. split; [|eauto]. cbn. destruct er as [[er|er]|er]; reflexivity. }
    { discriminate. }
    cbn in Pb. rewrite expr_parse_eq. cbn [parse BinExpr]. rewrite Pb. cbn [bind].
    now rewrite (respects_unique tr' tr Rs' Rs ltac:(congruence)).
  Qed.

  (** *** Nothing longer could have been read *)
  Lemma last_default {X} (l : list X) x y : last (x :: l) y = last l x.
  Proof.
    revert x y. induction l as [|z l IH]; intros x y; [reflexivity|].
    change (last (z :: l) y = last (z :: l) x). now rewrite !IH.
  Qed.

  Lemma chain_extend ps cps : Forall2 pair_text ps cps -> forall t ct rest, writes (ETerm t) ct ->
    exists t2 ct2 ps2 cps2 rest2, writes (ETerm t2) ct2 /\ Forall2 pair_text ps2 cps2 /\
      ct ++ concat cps ++ rest = ct2 ++ concat cps2 ++ rest2 /\ chain_stops t2 ps2 rest2 /\
      length rest2 <= length rest.
  Proof.
    induction 1 as [|[o tp] cp ps cps Hp F IH]; intros t ct rest W.
    - destruct t as [e|n].
      + exists (Parenthesized e), ct, [], [], rest. repeat split; auto.
      + inversion W; subst. destruct (take_while_split is_ascii_digit rest) as (rest2 & E & Fd & H).
        remember (take_while is_ascii_digit rest) as ds eqn:Eds. clear Eds.
        assert (Forall digit ds) as Fds. { eapply Forall_impl; [|exact Fd]. intros c. apply digit_spec. }
        exists (Integer (value n ds)), (ct ++ ds), [], [], rest2. split; [constructor; now apply numeral_extend|].
        split; [constructor|]. split; [cbn; rewrite <- app_assoc; now rewrite <- E|]. split.
        * unfold chain_stops. cbn. intros c r -> D. apply digit_spec in D. congruence.
        * rewrite E, app_length. lia.
    - destruct Hp as (sp & sp' & ctp & S1 & S2 & Wp & ->). cbn [fst snd] in *.
      destruct (IH tp ctp rest Wp) as (t2 & ct2 & ps2 & cps2 & rest2 & W2 & F2 & E & St & L).
      exists t, ct, ((o, t2) :: ps2), ((sp ++ [symbol o] ++ sp' ++ ct2) :: cps2), rest2.
      split; auto. split; [constructor; auto; exists sp, sp', ct2; auto|]. split.
      + cbn [concat]. rewrite <- !app_assoc. now rewrite E.
      + split; auto. unfold chain_stops in *. cbn [map snd]. now rewrite last_default.
  Qed.

  Lemma pair_functional d (s : S) v1 m1 v2 m2 : pair_ d s (Succ v1 m1) -> pair_ d s (Succ v2 m2) -> v1 = v2 /\ m1 = m2.
  Proof.
    intros H1 H2. inversion H1; subst. inversion H2; subst. cbn in *.
    repeat match goal with A : ?x = Ret (Ok _ _), B : ?x = Ret (Ok _ _) |- _ => rewrite A in B; injection B as -> -> end.
    auto.
  Qed.
  Lemma pair_missed d (s : S) v m e : pair_ d s (Succ v m) -> pair_ d s (Missed e) -> False.
  Proof.
    intros H1 H2. inversion H1 as [s0 x q y r0 Ho Ht| | | | | |]; subst.
    inversion H2 as [|s0 e0 [_ [l Hl]]| | |s0 x' q' e0 Ho' [_ [l Hl]]| |]; subst; cbn in *.
    - congruence.
    - rewrite Ho in Ho'. injection Ho' as -> ->. congruence.
  Qed.

  Lemma many_prefix d (m : S) ps r : many (pair_ d) m ps r -> forall ps' s' e, many (pair_ d) m ps' s' -> pair_ d s' (Missed e) ->
    exists ps'', many (pair_ d) r ps'' s'.
  Proof.
    induction 1 as [s|s v q ps r Hv M IH]; intros ps' s' e M' Hm.
    - eauto.
    - inversion M' as [|? v' q' ps0 ? Hv' M0]; subst.
      + exfalso. eapply pair_missed; eauto.
      + destruct (pair_functional d s _ _ _ _ Hv Hv') as [<- <-]. eapply IH; eauto.
  Qed.

  Lemma expr_longest d (s : S) e s' e' cs' rest' : length (text s) < d -> length (text s) < budget ->
    ex d s = Ret (Ok e s') -> text s = cs' ++ rest' -> writes e' cs' -> length (text s') <= length rest'.
  Proof.
    destruct d as [|d]; intros Ld Lb P T W; [lia|].
    apply writes_chain in W. destruct W as (tr & t & ct & ps & cps & _ & _ & _ & W & F & ->).
    destruct (chain_extend ps cps F t ct rest' W) as (t2 & ct2 & ps2 & cps2 & rest2 & W2 & F2 & E & St & L).
    etransitivity; [|exact L]. rewrite <- app_assoc, E in T.
    assert (length (ct2 ++ concat cps2) <= d) as Ln.
    { rewrite T, !app_length in Ld. rewrite app_length. unfold char in *. lia. }
    destruct (expr_start d d s t2 ct2 ps2 cps2 rest2 (expr_complete d) T W2 F2 St Ln Lb) as [H1 H2].
    assert (term_fits usize_max t2 /\ Forall (fun p => term_fits usize_max (snd p)) ps2) as B.
    { assert ({Forall (fun p : Op * Term => term_fits usize_max (snd p)) ps2} + {~ Forall (fun p : Op * Term => term_fits usize_max (snd p)) ps2}) as [D|D].
      { apply Forall_dec. intros p. apply term_fits_dec. }
      - destruct (term_fits_dec usize_max t2); [auto|]. rewrite H2 in P by tauto. discriminate.
      - rewrite H2 in P by tauto. discriminate. }
    destruct (H1 B) as (m & r & Pt & M & Tr & _).
    rewrite expr_parse_eq in P.
    destruct (parse (bin d) s) as [[[e0 er] s0|er l]| | |] eqn:Pb; cbn [bind] in P; try discriminate.
    injection P as -> ->. apply bin_ok in Pb. destruct Pb as (t3 & m3 & ps3 & tr3 & P3 & M3 & Hm & _).
    rewrite Pt in P3. injection P3 as <- <-.
    destruct (many_prefix d m ps2 r M ps3 s' er M3 Hm) as (ps4 & M4).
    assert (length (text r) < budget) as Lr. { rewrite T, !app_length in Lb. rewrite Tr. unfold char in *. lia. }
    destruct (chain_sound d r ps4 s' (expr_sound d) M4 Lr) as (cps4 & _ & T4 & _).
    rewrite <- Tr, T4, app_length. lia.
  Qed.

  (** *** It always answers *)
  Notation trouble := (trouble usize_max).

  Lemma trouble_app a b : trouble b -> trouble (a ++ b).
  Proof.
    intros [(x & c & y & -> & H)|(x & ds & y & n & -> & N & H)].
    - left. exists (a ++ x), c, y. rewrite <- app_assoc. auto.
    - right. exists (a ++ x), ds, y, n. rewrite <- app_assoc. auto.
  Qed.

  Definition answers {O} (p : pfun S O (Miss unit)) (s : S) : Prop :=
    (exists r, p s = Ret r) \/ (p s = Panic /\ trouble (text s)).

  Lemma wide c : len_utf8 c <> 1 -> (128 <= c)%N.
  Proof. unfold len_utf8. destruct (N.ltb_spec c 128); [congruence|auto]. Qed.

  Lemma term_answers d : (forall s, length (text s) < d -> length (text s) < budget -> answers (ex d) s) ->
    forall s, length (text s) <= d -> length (text s) < budget -> answers (tm d) s.
  Proof.
    intros HE s L Lb. unfold answers. rewrite term_parse_eq.
    destruct (integer_exact s) as (ds & rest & T & F & G & H1 & H2).
    destruct ds as [|c ds].
    2:{ destruct (numeral_exists (c :: ds) F) as [n N]; [discriminate|]. destruct (H2 n N) as [K1 K2].
        destruct (le_lt_dec n usize_max) as [B|B].
        - destruct (K1 B) as (s' & P & _). rewrite P. cbn [bind]. eauto.
        - rewrite (K2 B). right. split; auto. right. exists [], (c :: ds), rest, n. auto. }
    rewrite (H1 eq_refl). cbn [bind].
    pose proof (atom_one 40%N s eq_refl) as A1. destruct (text s) as [|c rest1] eqn:Ts.
    { change (opening s = Ret (Err (MkMiss tt) s)) in A1. rewrite A1. cbn [bind]. eauto. }
    destruct (N.eqb_spec c 40) as [->|Nc].
    2:{ change (opening s = if len_utf8 c =? 1 then Ret (Err (MkMiss tt) s) else Panic) in A1. rewrite A1.
        destruct (Nat.eqb_spec (len_utf8 c) 1) as [E|E]; cbn [bind]; [eauto|]. right. split; auto.
        left. exists [], c, rest1. split; auto. now apply wide. }
    destruct A1 as (s1 & P1 & T1 & _). change (opening s = Ret (Ok tt s1)) in P1. rewrite P1. cbn [bind].
    cbn in L, Lb. change (40%N :: rest1) with ([40%N] ++ rest1). rewrite <- T1 in *.
    destruct (HE s1) as [[r2 P2]|[P2 Tr]]; try (unfold char in *; lia).
    2:{ rewrite P2. right. split; auto. now apply trouble_app. }
    rewrite P2. cbn [bind]. destruct r2 as [e s2|er l]; [|eauto].
    assert (length (text s1) < budget) as L1 by (unfold char in *; lia).
    destruct (expr_sound d s1 e s2 L1 P2) as (cs & T2 & _).
    pose proof (atom_one 41%N s2 eq_refl) as A2. destruct (text s2) as [|c2 rest2] eqn:Ts2.
    { change (closing s2 = Ret (Err (MkMiss tt) s2)) in A2. rewrite A2. cbn [bind]. eauto. }
    destruct (N.eqb_spec c2 41) as [->|Nc2].
    - destruct A2 as (s3 & P3 & T3 & _). change (closing s2 = Ret (Ok tt s3)) in P3. rewrite P3. cbn [bind]. eauto.
    - change (closing s2 = if len_utf8 c2 =? 1 then Ret (Err (MkMiss tt) s2) else Panic) in A2. rewrite A2.
      destruct (Nat.eqb_spec (len_utf8 c2) 1) as [E|E]; cbn [bind]; [eauto|]. right. split; auto.
      left. exists ([40%N] ++ cs), c2, rest2. rewrite T2. split; [reflexivity|]. now apply wide.
  Qed.

  Lemma expr_answers d : forall s : S, length (text s) < d -> length (text s) < budget -> answers (ex d) s.
  Proof.
    induction d as [|d IH]; intros s L Lb; [lia|].
    unfold answers. rewrite expr_parse_eq.
    assert (length (text s) <= d) as L' by lia.
    destruct (term_answers d IH s L' Lb) as [[[t m|e l] Pt]|[Pt Tr]].
    2:{ cbn [parse BinExpr]. unfold bin_expr_parse, parse_impl. cbn [parse closure]. rewrite Pt. cbn. eauto. }
    2:{ cbn [parse BinExpr]. unfold bin_expr_parse, parse_impl. cbn [parse closure]. rewrite Pt. cbn. eauto. }
    destruct (term_sound d s t m (expr_sound d) Lb Pt) as (ct & T1 & W & B).
    assert (length (text m) < budget) as Lm by (rewrite T1, !app_length in Lb; unfold char in *; lia).
    destruct (chain_total (closure (tm d)) (spaced_op budget) budget m) as [(ps & r & M & E)|(ps & r & v & M & E & Hp & Hn)].
    { exfalso. destruct (chain_sound d m ps r (expr_sound d) M Lm) as (cps & F & T2 & _).
      pose proof (pairs_length ps cps F). rewrite T2, app_length in Lm. unfold char in *. lia. }
    destruct (chain_sound d m ps r (expr_sound d) M Lm) as (cps & F & T2 & _).
    destruct (bin_after_term LR expr_from_term expr_from_bin usize_max overflow_checks (closure (tm d)) (spaced_op budget)
          (term_is_forward d) spaced_op_forward op_in_range s t m ps r v budget Pt M E Hp Hn) as (tr & _ & _ & Pb).
    destruct v as [o q|e|e|k].
    - exfalso. eapply Hn. reflexivity.
    - cbn in Pb. cbn [parse BinExpr]. rewrite Pb. cbn. eauto.
    - destruct Pb as [_ [l Pb]]. cbn [parse BinExpr] in *. rewrite Pb. cbn. eauto.
    - assert (length (text r) < budget) as Lr by (rewrite T2, app_length in Lm; unfold char in *; lia).
      assert (k = CPanic /\ trouble (text r)) as [-> Tr].
      { inversion Hp as [| | |s0 k0 Ho| | |s0 o q k0 Ho Ht]; subst.
        - exfalso. destruct (spaced_op_sound r _ Lr eq_refl) as [(o & q & E' & _)|(er & l & E' & _)];
            destruct k; unfold behaves in Ho; rewrite Ho in E'; discriminate.
        - unfold behaves in Ho. destruct (spaced_op_sound r _ Lr Ho) as [(o' & q' & E' & Fo & _)|(er & l & E' & _)]; [|discriminate].
          injection E' as <- <-. apply op_follows_text in Fo. destruct Fo as (sp & sp' & _ & _ & T3).
          assert (length (text q) <= d) as Lq.
          { rewrite T1, T2, T3, !app_length in L'. unfold char in *. lia. }
          assert (length (text q) < budget) as Lq'.
          { rewrite T3, !app_length in Lr. unfold char in *. lia. }
          destruct (term_answers d IH q Lq Lq') as [[r' P']|[P' Tr]].
          + destruct k; unfold behaves in Ht; cbn [parse closure] in Ht; rewrite Ht in P'; discriminate.
          + split; [destruct k; unfold behaves in Ht; cbn [parse closure] in Ht; rewrite Ht in P'; congruence|].
            rewrite T3. do 3 apply trouble_app. exact Tr. }
      right. cbn in Pb. cbn [parse BinExpr]. rewrite Pb. split; auto. rewrite T1, T2. do 2 apply trouble_app. exact Tr.
  Qed.
End Parsers.

(** ** Sequences *)
Lemma str_positions : lawful_positions (S := strref) later_str.
Proof.
  constructor; [exact str_lawful|]. intros s a b H. unfold text in H. cbn in H. rewrite app_nil_r in H.
  destruct (str_advance_exact s) as [H1 _]. destruct (H1 a b H) as (s' & P & T & R). exists s'. split; auto. split; auto.
  unfold text. cbn. now rewrite app_nil_r.
Qed.

Lemma str_no_gaps (s : strref) : no_gaps s.
Proof.
  intros a b H. cbn in H. unfold strref_segments in H. destruct a as [|x a]; cbn in H.
  - injection H as _ <-. reflexivity.
  - injection H as _ H. destruct a; discriminate.
Qed.

Lemma drop_bytes_spec segs : forall a b, concat segs = a ++ b ->
  exists segs', drop_bytes (chars_len a) segs = Some segs' /\ concat segs' = b.
Proof.
  induction segs as [|x segs IH]; intros a b H; cbn in *.
  - symmetry in H. apply app_eq_nil in H. destruct H as [-> ->]. exists []. auto.
  - destruct (Nat.leb_spec (chars_len a) (chars_len x)) as [Le|Lt].
    + assert (exists z, x = a ++ z) as [z ->].
      { clear IH. revert a b H Le. induction x as [|c x IHx]; intros a b H Le.
        - unfold chars_len at 2 in Le. cbn in Le. assert (a = []) as -> by (apply chars_len_zero; lia). now exists [].
        - destruct a as [|d a]; [now exists (c :: x)|]. cbn in H. injection H as -> H.
          rewrite !chars_len_cons in Le. destruct (IHx a b H) as [z ->]; [lia|]. now exists z. }
      rewrite split_chars_complete. exists (z :: segs). split; auto. cbn.
      rewrite <- app_assoc in H. now apply app_inv_head in H.
    + assert (exists z, a = x ++ z) as [z ->].
      { clear IH. revert a b H Lt. induction x as [|c x IHx]; intros a b H Lt; [now exists a|].
        destruct a as [|d a]; [unfold chars_len at 2 in Lt; cbn in Lt; lia|]. cbn in H. injection H as -> H.
        rewrite !chars_len_cons in Lt. destruct (IHx a b H) as [z ->]; [lia|]. now exists z. }
      rewrite <- app_assoc in H. apply app_inv_head in H. rewrite chars_len_app.
      replace (chars_len x + chars_len z - chars_len x) with (chars_len z) by lia. now apply IH.
Qed.

Lemma map_chars_Str l : map chars (map Str l) = l.
Proof. induction l; cbn; congruence. Qed.

Lemma pieces_positions : lawful_positions (S := pieces) (fun _ _ => True).
Proof.
  constructor; [constructor; auto|]. intros s a b H. unfold text in *. cbn in *. rewrite map_chars_Str in H.
  destruct (drop_bytes_spec _ _ _ H) as (x & P & E). rewrite P. exists (Pieces x). cbn. now rewrite map_chars_Str.
Qed.

Lemma non_empty_concat segs : concat (map (fun x => fst x :: snd x) (non_empty segs)) = concat segs.
Proof. induction segs as [|[|c x] segs IH]; cbn; auto. now rewrite IH. Qed.

Lemma full_pieces_positions : lawful_positions (S := full_pieces) (fun _ _ => True).
Proof.
  constructor; [constructor; auto|]. intros s a b H. unfold text in *. cbn in *. rewrite map_chars_Str in H.
  destruct (drop_bytes_spec _ _ _ H) as (x & P & E). rewrite P. exists (FullPieces (non_empty x)). cbn.
  rewrite map_chars_Str. unfold fp_list. cbn. rewrite non_empty_concat. auto.
Qed.

Lemma full_pieces_no_gaps (s : full_pieces) : no_gaps s.
Proof.
  intros a b H. exfalso. cbn in H. assert (In (Str []) (map Str (fp_list s))) as I by (rewrite H; apply in_elt).
  apply in_map_iff in I. destruct I as (x & E & I). injection E as ->. apply in_map_iff in I.
  destruct I as (y & E & _). discriminate.
Qed.

(** ** Unambiguity *)
Lemma numeral_unique cs n m : numeral cs n -> numeral cs m -> n = m.
Proof. intros A B. apply numeral_value in A, B. destruct A as (_ & _ & ->), B as (_ & _ & ->). auto. Qed.

Fixpoint biggest (e : Expr) : nat :=
  match e with BinOp l _ r => biggest l + biggest r | ETerm t => biggest_term t end
with biggest_term (t : Term) : nat :=
  match t with Parenthesized e => biggest e | Integer n => n end.

Fixpoint biggest_fits e : forall max, biggest e <= max -> fits max e
with biggest_term_fits t : forall max, biggest_term t <= max -> term_fits max t.
Proof.
  - destruct e as [l o r|t]; intros max L; cbn in *.
    + split; apply biggest_fits; lia.
    + now apply biggest_term_fits.
  - destruct t as [e|n]; intros max L; cbn in *; [now apply biggest_fits|auto].
Qed.

Lemma unambiguous e1 e2 cs : writes e1 cs -> writes e2 cs -> e1 = e2.
Proof.
  intros W1 W2. set (max := 3 + biggest e1 + biggest e2). set (s := StrRef 1 0 (Str cs)).
  set (n := Datatypes.S (length cs)).
  assert (text s = cs ++ []) as T by (unfold text; cbn; reflexivity).
  assert (length (text s) < n) as L by (rewrite T, app_nil_r; subst n; lia).
  assert (2 < max) as B by (subst max; lia).
  destruct (expr_complete str_positions max true n B str_no_gaps n s e1 cs [] T W1 I) as [H1 _]; auto.
  destruct (expr_complete str_positions max true n B str_no_gaps n s e2 cs [] T W2 I) as [H2 _]; auto.
  destruct H1 as (s1 & P1 & _). { apply biggest_fits. subst max. lia. }
  destruct H2 as (s2 & P2 & _). { apply biggest_fits. subst max. lia. }
  congruence.
Qed.

(** ** Display *)
Lemma decimal_within_spec fuel : forall n, n < fuel -> numeral (decimal_within fuel n) n.
Proof.
  induction fuel as [|fuel IH]; intros n L; [lia|]. cbn [decimal_within].
  pose proof (Nat.div_mod n 10 ltac:(lia)) as D. pose proof (Nat.mod_upper_bound n 10 ltac:(lia)) as U.
  assert (digit (48 + N.of_nat (n mod 10))%N) as Dg by (unfold digit; lia).
  assert (N.to_nat (48 + N.of_nat (n mod 10)) - 48 = n mod 10) as V by lia.
  destruct (Nat.ltb_spec n 10) as [Lt|Ge]; cbn [app].
  - rewrite Nat.mod_small in * by lia. rewrite <- V at 2. now constructor.
  - rewrite D at 3. rewrite <- V at 2. constructor; auto. apply IH. pose proof (Nat.div_lt n 10). lia.
Qed.
Lemma decimal_spec n : numeral (decimal n) n.
Proof. apply decimal_within_spec. lia. Qed.

(** What [display] is a text of. *)
Fixpoint shown (e : Expr) : Expr :=
  match e with
  | BinOp l o r => ETerm (Parenthesized (BinOp (shown l) o (shown r)))
  | ETerm t => shown_term t
  end
with shown_term (t : Term) : Expr :=
  match t with Parenthesized e => shown e | Integer n => ETerm (Integer n) end.

Fixpoint shown_tight e : tightness (shown e) = 3
with shown_term_tight t : tightness (shown_term t) = 3.
Proof.
  - destruct e; cbn; [reflexivity|apply shown_term_tight].
  - destruct t; cbn; [apply shown_tight|reflexivity].
Qed.

Fixpoint shown_writes e : writes (shown e) (display decimal e)
with shown_term_writes t : writes (shown_term t) (display_term decimal t).
Proof.
  - destruct e as [l o r|t]; cbn [shown display]; [|apply shown_term_writes].
    pose proof (shown_writes l) as Wl. pose proof (shown_writes r) as Wr.
    replace ([40%N] ++ display decimal l ++ op_text o ++ display decimal r ++ [41%N])
      with ([40%N] ++ (display decimal l ++ [32%N] ++ [symbol o] ++ [32%N] ++ display decimal r) ++ [41%N])
      by (rewrite <- !app_assoc; destruct o; reflexivity).
    constructor. constructor; auto; try (split; [discriminate|repeat constructor]);
      rewrite shown_tight; destruct o; cbn; lia.
  - destruct t as [e|n]; cbn [shown_term display_term]; [apply shown_writes|]. constructor. apply decimal_spec.
Qed.

Fixpoint shown_eval max ov e : eval max ov (shown e) = eval max ov e
with shown_term_eval max ov t : eval max ov (shown_term t) = eval_term max ov t.
Proof.
  - destruct e as [l o r|t]; [|apply shown_term_eval].
    pose proof (shown_eval max ov l) as El. pose proof (shown_eval max ov r) as Er.
    change (eval max ov (shown (BinOp l o r))) with (eval max ov (BinOp (shown l) o (shown r))).
    cbn [eval]. now rewrite El, Er.
  - destruct t; cbn; [apply shown_eval|reflexivity].
Qed.

Fixpoint shown_display e : display decimal (shown e) = display decimal e
with shown_term_display t : display decimal (shown_term t) = display_term decimal t.
Proof.
  - destruct e as [l o r|t]; cbn; [|apply shown_term_display]. now rewrite !shown_display.
  - destruct t; cbn; [apply shown_display|reflexivity].
Qed.

Fixpoint shown_fits max e : fits max e -> fits max (shown e)
with shown_term_fits max t : term_fits max t -> fits max (shown_term t).
Proof.
  - destruct e as [l o r|t]; cbn; [|apply shown_term_fits]. intros [A B]. split; now apply shown_fits.
  - destruct t; cbn; [apply shown_fits|auto].
Qed.
