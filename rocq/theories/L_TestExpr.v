(** * L_TestExpr: proofs about the grammar in the tests of bin_expr.rs.  The proofs follow
    those of L_Cache; [~] groups to the right. *)
From Verif Require Export L_Example L_Example3.
From Verif Require Export M_TestExpr S_TestExpr.

Local Arguments Nat.ltb : simpl never.
Local Arguments Nat.leb : simpl never.
Local Arguments Nat.eqb : simpl never.
Local Arguments Nat.mul : simpl never.
Local Arguments chars_len : simpl never.

(** ** Chains of terms *)
Definition pair_text (p : Op * Term) (cs : list char) : Prop :=
  exists sp sp' ct, spaces sp /\ spaces sp' /\ writes (ETerm (snd p)) ct /\
    cs = sp ++ [symbol (fst p)] ++ sp' ++ ct.

Notation ctree := (tree Term Op).
Notation cbuild := (build expr_from_term expr_from_bin).

Lemma tightness_build (tr : ctree) :
  tightness (cbuild tr) = match root tr with None => 3 | Some o => strength o end.
Proof. now destruct tr. Qed.

Lemma strength_bounds o : strength o <= 2.
Proof. destruct o; cbn; lia. Qed.

Lemma left_tight (tr : ctree) o :
  stands_left (cbuild tr) o <-> (forall c, root tr = Some c -> left_ok c o).
Proof.
  unfold stands_left. rewrite tightness_build. pose proof (strength_bounds o). destruct (root tr) as [c|].
  - unfold left_ok. change (@precedence Op _) with strength. split.
    + intros L c' E. injection E as <-. destruct o, c; cbn in *; auto; lia.
    + intros L. specialize (L c eq_refl). destruct o, c; cbn in *; try lia; destruct L as [L|[L1 L2]]; try lia; discriminate.
  - split; [discriminate|]. destruct o; cbn; lia.
Qed.

Lemma right_tight (tr : ctree) o :
  stands_right (cbuild tr) o <-> (forall c, root tr = Some c -> right_ok c o).
Proof.
  unfold stands_right. rewrite tightness_build. pose proof (strength_bounds o). destruct (root tr) as [c|].
  - unfold right_ok. change (@precedence Op _) with strength. split.
    + intros L c' E. injection E as <-. destruct o, c; cbn in *; auto; lia.
    + intros L. specialize (L c eq_refl). destruct o, c; cbn in *; try lia; destruct L as [L|[L1 L2]]; try lia; discriminate.
  - split; [discriminate|]. destruct o; cbn; lia.
Qed.

Lemma writes_chain e cs : writes e cs ->
  exists (tr : ctree) t ct ps cps, e = cbuild tr /\ respects tr /\ reading tr = (t, ps) /\
    writes (ETerm t) ct /\ Forall2 pair_text ps cps /\ cs = ct ++ concat cps.
Proof.
  induction 1 as [|e cs W IH|l o r cl cr sp sp' Wl IHl Wr IHr Sp Sp' Tl Tr].
  - exists (Leaf Zero), Zero, [48%N], [], []. cbn.
    repeat split; auto. constructor.
  - exists (Leaf (Parenthesized e)), (Parenthesized e), ([40%N] ++ cs ++ [41%N]), [], [].
    cbn [concat]. rewrite app_nil_r. repeat split; auto. now constructor.
  - destruct IHl as (trl & tl & ctl & psl & cpsl & -> & Rl & Dl & Wtl & Fl & ->).
    destruct IHr as (trr & tr & ctr & psr & cpsr & -> & Rr & Dr & Wtr & Fr & ->).
    exists (Node trl o trr), tl, ctl, (psl ++ (o, tr) :: psr),
      (cpsl ++ (sp ++ [symbol o] ++ sp' ++ ctr) :: cpsr).
    split; [reflexivity|]. split.
    { cbn. split; auto. split; auto. split; [now apply left_tight|now apply right_tight]. }
    split; [cbn; rewrite Dl, Dr; reflexivity|]. split; auto. split.
    { apply Forall2_app; auto. constructor; auto. exists sp, sp', ctr. auto. }
    rewrite concat_app. cbn [concat]. rewrite <- !app_assoc. reflexivity.
Qed.

Lemma chain_writes (tr : ctree) : respects tr -> forall t ct ps cps, reading tr = (t, ps) ->
  writes (ETerm t) ct -> Forall2 pair_text ps cps -> writes (cbuild tr) (ct ++ concat cps).
Proof.
  induction tr as [t0|l IHl o r IHr]; intros R t ct ps cps E W F; cbn in E.
  - injection E as <- <-. inversion F; subst. cbn [concat]. rewrite app_nil_r. exact W.
  - cbn in R. destruct R as (Rl & Rr & Kl & Kr).
    destruct (reading l) as [tl psl] eqn:El, (reading r) as [trr psr] eqn:Er. cbn in E. injection E as <- <-.
    apply Forall2_app_inv_l in F. destruct F as (cpsl & q & Fl & Fq & ->).
    inversion Fq as [|? c ? cpsr (sp & sp' & ctr & Sp & Sp' & Wr & ->) Fr]; subst.
    specialize (IHl Rl _ _ _ _ eq_refl W Fl). specialize (IHr Rr _ _ _ _ eq_refl Wr Fr).
    rewrite concat_app. cbn [concat fst]. replace (ct ++ concat cpsl ++ (sp ++ [symbol o] ++ sp' ++ ctr) ++ concat cpsr)
      with ((ct ++ concat cpsl) ++ sp ++ [symbol o] ++ sp' ++ (ctr ++ concat cpsr)) by (rewrite <- !app_assoc; reflexivity).
    cbn [build]. unfold expr_from_bin at 1. constructor; auto; [now apply left_tight|now apply right_tight].
Qed.

(** What a term starts with. *)
Lemma term_head t ct : writes (ETerm t) ct -> exists c ct', ct = c :: ct' /\ (c = 48%N \/ c = 40%N).
Proof. intros W. inversion W; subst; cbn; eauto. Qed.

Lemma term_no_space t ct rest : writes (ETerm t) ct -> no_space (ct ++ rest).
Proof.
  intros W. apply term_head in W. destruct W as (c & ct' & -> & H). intros r E. cbn in E. injection E as -> _.
  destruct H as [H|H]; discriminate.
Qed.

Lemma pair_text_space p cp : pair_text p cp -> exists cp', cp = 32%N :: cp'.
Proof.
  intros (sp & sp' & ct & [N F] & _ & _ & ->). destruct sp as [|c sp]; [congruence|]. inversion F; subst.
  cbn. eauto.
Qed.

Lemma pairs_length ps cps : Forall2 pair_text ps cps -> length ps <= length (concat cps).
Proof.
  induction 1 as [|p cp ps cps Hp _ IH]; cbn; [lia|]. apply pair_text_space in Hp. destruct Hp as [cp' ->].
  rewrite app_length. cbn. lia.
Qed.

Lemma symbol_dec cs : (exists o rest, cs = symbol o :: rest) \/ (forall o rest, cs <> symbol o :: rest).
Proof.
  destruct cs as [|c rest]; [right; discriminate|].
  destruct (N.eq_dec c 43) as [->|N1]; [left; now exists Add, rest|].
  destruct (N.eq_dec c 45) as [->|N2]; [left; now exists Sub, rest|].
  destruct (N.eq_dec c 42) as [->|N3]; [left; now exists Mul, rest|].
  destruct (N.eq_dec c 47) as [->|N4]; [left; now exists Div, rest|].
  destruct (N.eq_dec c 126) as [->|N5]; [left; now exists Til, rest|].
  right. intros o r E. injection E as -> _. destruct o; cbn in *; congruence.
Qed.

Lemma symbol_no_space o rest : no_space (symbol o :: rest).
Proof. intros r E. injection E as E _. now destruct o. Qed.
Lemma symbol_inj o o' : symbol o = symbol o' -> o = o'.
Proof. now destruct o, o'. Qed.

(** A spaced operator at the start of a text. *)
Definition op_follows (cs : list char) (o : Op) (rest : list char) : Prop :=
  exists sp sp', spaces sp /\ spaces sp' /\ cs = sp ++ [symbol o] ++ sp' ++ rest /\ no_space rest.

Lemma op_follows_dec cs : (exists o rest, op_follows cs o rest) \/ (forall o rest, ~ op_follows cs o rest).
Proof.
  destruct (split_spaces cs) as (sp & rest & -> & F & N).
  assert (forall o r, op_follows (sp ++ rest) o r -> sp <> [] /\ exists sp', spaces sp' /\ rest = [symbol o] ++ sp' ++ r /\ no_space r) as Inv.
  { intros o r (sp0 & sp' & [N1 F1] & S2 & E & Nr). apply spaces_unique in E; auto; [|apply symbol_no_space].
    destruct E as [-> ->]. split; auto. exists sp'. auto. }
  destruct sp as [|c sp]; [right; intros o r H; now destruct (Inv _ _ H)|].
  destruct (symbol_dec rest) as [(o & rest1 & ->)|E].
  2:{ right. intros o r H. destruct (Inv _ _ H) as (_ & sp' & _ & E' & _). eapply E. exact E'. }
  destruct (split_spaces rest1) as (sp' & rest' & -> & F' & N').
  destruct sp' as [|c' sp'].
  - right. intros o' r H. destruct (Inv _ _ H) as (_ & sp' & [Q1 Q2] & E' & N''). cbn in E'. injection E' as _ E'.
    change (rest' = sp' ++ r) in E'. destruct sp'; [congruence|]. inversion Q2; subst. now apply (N' (sp' ++ r)).
  - left. exists o, rest'. exists (c :: sp), (c' :: sp'). repeat split; auto; discriminate.
Qed.

Lemma closed_not_op rest : closed rest -> forall o r, ~ op_follows rest o r.
Proof.
  intros C o r (sp & sp' & [N F] & _ & -> & _). destruct sp as [|c sp]; [congruence|]. inversion F; subst.
  cbn in C. congruence.
Qed.

(** ** The parsers *)
Section Parsers.
  Context {S A : Type} {SQ : Sequence S str} {RS : RewindSequence S A} {reach : S -> S -> Prop}.
  Context (LP : lawful_positions reach).
  Context (usize_max : nat) (overflow_checks : bool) (budget : nat).
  Let LR : lawful_rewind reach := lp_rewind LP.

  (** *** Spaces: the same parser as in the other example *)
  Lemma space_same (s : S) : space_parse budget s = M_Example.space_parse budget s.
  Proof. reflexivity. Qed.

  (** *** Operators *)
  Lemma any_char_exact (s : S) :
    match text s with
    | [] => any_char_parse s = Ret (Err (MkMiss tt) s)
    | c :: rest => exists s', any_char_parse s = Ret (Ok c s') /\ text s' = rest /\ reach s s'
    end.
  Proof.
    unfold any_char_parse. pose proof (advance_first LP s) as Hadv. unfold text in *.
    induction (segments s) as [|seg segs IH]; cbn; [reflexivity|].
    destruct (chars seg) as [|y ys] eqn:E; cbn in *; rewrite E in Hadv; cbn in Hadv; [exact (IH Hadv)|].
    destruct (Hadv y _ eq_refl) as (s' & P & T & R). rewrite P. cbn. exists s'. auto.
  Qed.

  Lemma op_exact (s : S) :
    (forall o rest, text s = symbol o :: rest ->
       exists s', op_parse s = Ret (Ok o s') /\ text s' = rest /\ reach s s') /\
    ((forall o rest, text s <> symbol o :: rest) ->
       exists l, op_parse s = Ret (Err (MkMiss tt) l) /\ reach s l).
  Proof.
    unfold op_parse. cbn [parse AndThen]. unfold and_then_parse. cbn [parse any_char].
    pose proof (any_char_exact s) as H. split.
    - intros o rest T. rewrite T in H. destruct H as (s' & P & T' & R). rewrite P. cbn [bind].
      exists s'. destruct o; cbn; auto.
    - intros N. destruct (text s) as [|c rest].
      + rewrite H. cbn. exists s. split; auto. apply (reach_refl LR).
      + destruct H as (s' & P & T' & R). rewrite P. cbn [bind]. exists s'. split; auto.
        destruct (N.eqb_spec c 43) as [->|]; [exfalso; now apply (N Add rest)|].
        destruct (N.eqb_spec c 45) as [->|]; [exfalso; now apply (N Sub rest)|].
        destruct (N.eqb_spec c 42) as [->|]; [exfalso; now apply (N Mul rest)|].
        destruct (N.eqb_spec c 47) as [->|]; [exfalso; now apply (N Div rest)|].
        destruct (N.eqb_spec c 126) as [->|]; [exfalso; now apply (N Til rest)|]. reflexivity.
  Qed.

  Lemma spaced_op_parse (s : S) : parse (spaced_op budget) s =
    (r <- space_parse budget s ;;
     match r with
     | Err e l => Ret (Err (First (First e)) l)
     | Ok _ s1 =>
         r <- op_parse s1 ;;
         match r with
         | Err e l => Ret (Err (First (Last e)) l)
         | Ok o s2 =>
             r <- space_parse budget s2 ;;
             match r with Err e l => Ret (Err (Last e) l) | Ok _ s3 => Ret (Ok o s3) end
         end
     end).
  Proof.
    cbn [spaced_op parse Map]. unfold map_parse. cbn [parse Join]. unfold join_parse. cbn [parse Join]. unfold join_parse.
    cbn [parse space op closure].
    destruct (space_parse budget s) as [[[] s1|e l]| | |]; unfold done, fail; cbn [bind]; auto.
    destruct (op_parse s1) as [[o s2|e l]| | |]; unfold done, fail; cbn [bind]; auto.
    destruct (space_parse budget s2) as [[[] s3|e l]| | |]; unfold done, fail; cbn [bind]; auto.
  Qed.

  Lemma spaced_op_exact (s : S) : length (text s) < budget ->
    (forall o rest, op_follows (text s) o rest ->
       exists s', parse (spaced_op budget) s = Ret (Ok o s') /\ text s' = rest /\ reach s s') /\
    ((forall o rest, ~ op_follows (text s) o rest) ->
       exists e l, parse (spaced_op budget) s = Ret (Err e l) /\ reach s l).
  Proof.
    intros L. rewrite spaced_op_parse. split.
    - intros o rest (sp & sp' & [N1 F1] & [N2 F2] & T & N).
      destruct (space_exact LP budget s sp _ T F1) as [_ H1]; auto; [apply symbol_no_space|].
      destruct (H1 N1) as (s1 & P1 & T1 & R1). rewrite space_same, P1. cbn [bind].
      destruct (op_exact s1) as [H2 _]. destruct (H2 o _ T1) as (s2 & P2 & T2 & R2). rewrite P2. cbn [bind].
      assert (length (text s2) < budget) as L2.
      { rewrite T, !app_length in L. rewrite T2, app_length. cbn in L. lia. }
      destruct (space_exact LP budget s2 sp' rest T2 F2 N L2) as [_ H3].
      destruct (H3 N2) as (s3 & P3 & T3 & R3). rewrite space_same, P3. cbn [bind].
      exists s3. split; auto. split; auto. eapply (reach_trans LR); [exact R1|]. eapply (reach_trans LR); eauto.
    - intros H. destruct (split_spaces (text s)) as (sp & rest & T & F & N).
      destruct (space_exact LP budget s sp rest T F N L) as [H1 H2]. rewrite space_same.
      destruct sp as [|c sp0].
      { destruct (H1 eq_refl) as (l & P & R). rewrite P. cbn. eauto. }
      destruct H2 as (s1 & P1 & T1 & R1); [discriminate|]. rewrite P1. cbn [bind]. clear H1.
      destruct (op_exact s1) as [H2 H3]. destruct (symbol_dec (text s1)) as [(o & rest1 & E)|E].
      2:{ destruct (H3 E) as (l & P & R). rewrite P. cbn. do 2 eexists. split; eauto. eapply (reach_trans LR); eauto. }
      destruct (H2 o _ E) as (s2 & P2 & T2 & R2). rewrite P2. cbn [bind].
      destruct (split_spaces (text s2)) as (sp' & rest' & T' & F' & N').
      assert (length (text s2) < budget) as L2.
      { rewrite T, <- T1, E, app_length in L. rewrite T2. cbn [length] in L. clear - L. unfold char in *. lia. }
      destruct (space_exact LP budget s2 sp' rest' T' F' N' L2) as [H4 H5]. rewrite space_same.
      destruct sp' as [|c' sp'].
      { destruct (H4 eq_refl) as (l & P & R). rewrite P. cbn. do 2 eexists. split; eauto.
        eapply (reach_trans LR); [exact R1|]. eapply (reach_trans LR); eauto. }
      exfalso. apply (H o rest'). exists (c :: sp0), (c' :: sp'). repeat split; auto; try discriminate.
      rewrite T, <- T1, E, <- T2, T'. reflexivity.
  Qed.

  Lemma spaced_op_sound (s : S) r : length (text s) < budget -> parse (spaced_op budget) s = r ->
    (exists o s', r = Ret (Ok o s') /\ op_follows (text s) o (text s') /\ reach s s') \/
    (exists e l, r = Ret (Err e l) /\ reach s l /\ forall o rest, ~ op_follows (text s) o rest).
  Proof.
    intros L <-. destruct (spaced_op_exact s L) as [H1 H2].
    destruct (op_follows_dec (text s)) as [(o & rest & H)|H].
    - left. destruct (H1 _ _ H) as (s' & P & T & R). exists o, s'. rewrite T. auto.
    - right. destruct (H2 H) as (e & l & P & R). exists e, l. auto.
  Qed.

  (** *** Terms *)
  Notation opening := (atom_parse (Str [40%N])).
  Notation closing := (atom_parse (Str [41%N])).

  Lemma term_parse_eq (ex : pfun S Expr (Miss unit)) (s : S) : term_parse ex s =
    (r <- atom_parse (Str [48%N]) s ;;
     match r with
     | Ok _ s1 => Ret (Ok Zero s1)
     | Err _ _ =>
         r <- opening s ;;
         match r with
         | Err _ l => Ret (Err (MkMiss tt) l)
         | Ok _ s1 =>
             r <- ex s1 ;;
             match r with
             | Err _ l => Ret (Err (MkMiss tt) l)
             | Ok e s2 =>
                 r <- closing s2 ;;
                 match r with
                 | Err _ l => Ret (Err (MkMiss tt) l)
                 | Ok _ s3 => Ret (Ok (Parenthesized e) s3)
                 end
             end
         end
     end).
  Proof.
    unfold term_parse. cbn [parse MapErr]. unfold map_err_parse. cbn [parse Map]. unfold map_parse. cbn [parse Or].
    unfold or_parse. cbn [parse zero closure]. unfold zero_parse. cbn [parse atom].
    destruct (atom_parse (Str [48%N]) s) as [[n s1|e l]| | |] eqn:P; cbn [bind done]; auto.
    cbn [should_terminate pe_miss negb]. apply (atom_one_sound LP 48%N s _ eq_refl) in P. destruct P as [-> _].
    rewrite (rewind_anchor LR s s (reach_refl LR s)). cbn [bind parse Map]. unfold map_parse. cbn [parse Join].
    unfold join_parse. cbn [parse Join]. unfold join_parse. cbn [parse atom closure].
    destruct (opening s) as [[u s1|e1 l1]| | |]; unfold done, fail; cbn [bind should_terminate pe_miss pe_either negb]; auto.
    destruct (ex s1) as [[ee s2|e2 l2]| | |]; unfold done, fail; cbn [bind should_terminate pe_miss pe_either negb]; auto.
    destruct (closing s2) as [[u' s3|e3 l3]| | |]; unfold done, fail; cbn [bind should_terminate pe_miss pe_either negb]; auto.
  Qed.

  Lemma expr_parse_eq d (s : S) : expr_parse usize_max overflow_checks budget (Datatypes.S d) s =
    (r <- parse (BinExpr expr_from_term expr_from_bin usize_max overflow_checks budget
                   (closure (term_parse (expr_parse usize_max overflow_checks budget d)))
                   (spaced_op budget)) s ;;
     match r with
     | Ok (e, _) s' => Ret (Ok e s')
     | Err _ l => Ret (Err (MkMiss tt) l)
     end).
  Proof.
    cbn [expr_parse]. cbn [parse Boxed]. unfold boxed_parse. cbn [parse MapErr]. unfold map_err_parse.
    cbn [parse Map]. unfold map_parse.
    match goal with |- context [parse ?b s] => destruct (parse b s) as [[[e er] s'|e l]| | |] end; reflexivity.
  Qed.

  (** *** Only moving forward *)
  Lemma op_forward : forward reach (op_parse (SQ := SQ)).
  Proof.
    intros s r H. destruct (op_exact s) as [H1 H2]. destruct (symbol_dec (text s)) as [(o & rest & E)|E].
    - destruct (H1 _ _ E) as (s' & P & _ & R). rewrite P in H. injection H as <-. exact R.
    - destruct (H2 E) as (l & P & R). rewrite P in H. injection H as <-. exact R.
  Qed.
  Lemma spaced_op_forward : forward reach (parse (spaced_op (SQ := SQ) budget)).
  Proof.
    apply (map_forward (reach := reach)). apply (join_forward LR); [apply (join_forward LR)|].
    - exact (space_forward LP budget).
    - exact op_forward.
    - exact (space_forward LP budget).
  Qed.
  Lemma term_forward (ex : pfun S Expr (Miss unit)) : forward reach ex -> forward reach (term_parse ex).
  Proof.
    intros F. apply (map_err_forward (reach := reach)). apply (map_forward (reach := reach)). apply (or_forward LR).
    - now apply (atom_one_forward LP).
    - apply (map_forward (reach := reach)). apply (join_forward LR); [apply (join_forward LR)|].
      + now apply (atom_one_forward LP).
      + exact F.
      + now apply (atom_one_forward LP).
  Qed.
  Lemma expr_forward d : forward reach (expr_parse usize_max overflow_checks budget d).
  Proof.
    induction d as [|d IH]; [intros s r H; discriminate|].
    intros s r. cbn [expr_parse]. revert s r. apply (map_err_forward (reach := reach)).
    apply (map_forward (reach := reach)). apply (bin_forward LR).
    - now apply term_forward.
    - exact spaced_op_forward.
  Qed.

  Notation ex d := (expr_parse usize_max overflow_checks budget d).
  Notation tm d := (term_parse (ex d)).
  Notation pair_ d := (sequence (behaves (parse (spaced_op budget))) (behaves (parse (closure (tm d))))).
  Notation bin d := (BinExpr expr_from_term expr_from_bin usize_max overflow_checks budget (closure (tm d)) (spaced_op budget)).

  Lemma term_is_forward d : forward reach (parse (closure (tm d))).
  Proof. apply term_forward. apply expr_forward. Qed.

  Context (big : 2 < usize_max).

  Lemma op_in_range (s : S) o r : parse (spaced_op budget) s = Ret (Ok o r) -> in_range usize_max o.
  Proof. intros _ _. destruct o; cbn; lia. Qed.

  (** *** Soundness *)
  Lemma term_sound d (s : S) t s' :
    (forall s e s', length (text s) < budget -> ex d s = Ret (Ok e s') ->
       exists cs, text s = cs ++ text s' /\ writes e cs) ->
    length (text s) < budget -> tm d s = Ret (Ok t s') ->
    exists ct, text s = ct ++ text s' /\ writes (ETerm t) ct.
  Proof.
    intros HE L P. rewrite term_parse_eq in P.
    destruct (atom_parse (Str [48%N]) s) as [[u0 s0|e0 l0]| | |] eqn:P0; cbn [bind] in P; try discriminate.
    - injection P as <- <-. apply (atom_one_sound LP 48%N s _ eq_refl) in P0. destruct P0 as [T _].
      exists [48%N]. split; [exact T|constructor].
    - destruct (opening s) as [[u s1|e1 l1]| | |] eqn:P1; cbn [bind] in P; try discriminate.
      destruct (ex d s1) as [[e s2|e2 l2]| | |] eqn:P2; cbn [bind] in P; try discriminate.
      destruct (closing s2) as [[u' s3|e3 l3]| | |] eqn:P3; cbn [bind] in P; try discriminate.
      injection P as <- <-.
      apply (atom_one_sound LP 40%N s _ eq_refl) in P1. destruct P1 as [T1 _].
      apply (atom_one_sound LP 41%N s2 _ eq_refl) in P3. destruct P3 as [T3 _].
      destruct (HE s1 e s2) as (cs & T2 & W); auto.
      { rewrite T1 in L. cbn in L. unfold char in *. lia. }
      exists ([40%N] ++ cs ++ [41%N]). split; [|now constructor].
      rewrite T1, T2, T3. cbn. rewrite <- app_assoc. reflexivity.
  Qed.

  Lemma op_follows_text o (s s' : S) : op_follows (text s) o (text s') ->
    exists sp sp', spaces sp /\ spaces sp' /\ text s = sp ++ [symbol o] ++ sp' ++ text s'.
  Proof. intros (sp & sp' & H1 & H2 & H3 & _). eauto. Qed.

  Lemma chain_sound d (m : S) ps r :
    (forall s e s', length (text s) < budget -> ex d s = Ret (Ok e s') ->
       exists cs, text s = cs ++ text s' /\ writes e cs) ->
    many (pair_ d) m ps r -> length (text m) < budget ->
    exists cps, Forall2 pair_text ps cps /\ text m = concat cps ++ text r.
  Proof.
    intros HE M. induction M as [s|s [o t] m ps r Hp M IH]; intros L.
    - exists []. repeat split; auto.
    - inversion Hp as [s0 x q y r0 Ho Ht| | | | | |]; subst. cbn in Ho, Ht.
      destruct (spaced_op_sound s _ L Ho) as [(o' & s' & E & F & _)|(e & l & E & _)]; [|discriminate].
      injection E as <- <-. apply op_follows_text in F. destruct F as (sp & sp' & S1 & S2 & T1).
      assert (length (text q) < budget) as Lq by (rewrite T1, !app_length in L; unfold char in *; lia).
      destruct (term_sound d q t m HE Lq Ht) as (ct & T2 & W).
      assert (length (text m) < budget) as Lm by (rewrite T2, !app_length in Lq; unfold char in *; lia).
      destruct (IH Lm) as (cps & F2 & T3).
      exists ((sp ++ [symbol o] ++ sp' ++ ct) :: cps). split.
      + constructor; auto. exists sp, sp', ct. auto.
      + rewrite T1, T2, T3. cbn [concat]. rewrite <- !app_assoc. reflexivity.
  Qed.

  Lemma bin_ok d (s : S) e er s' : parse (bin d) s = Ret (Ok (e, er) s') ->
    exists t m ps (tr : ctree), tm d s = Ret (Ok t m) /\ many (pair_ d) m ps s' /\ pair_ d s' (Missed er) /\
      reading tr = (t, ps) /\ respects tr /\ e = cbuild tr.
  Proof.
    intros P.
    pose proof (bin_sound LR expr_from_term expr_from_bin usize_max overflow_checks (closure (tm d)) (spaced_op budget)
      (term_is_forward d) spaced_op_forward op_in_range budget s (Succ (e, er) s') P ltac:(discriminate)) as Ho.
    inversion Ho; subst. match goal with H : repetition _ _ _ |- _ => inversion H; subst end.
    exists t, m, ps, tr. auto 8.
  Qed.

  Lemma expr_sound d : forall (s : S) e s', length (text s) < budget -> ex d s = Ret (Ok e s') ->
    exists cs, text s = cs ++ text s' /\ writes e cs.
  Proof.
    induction d as [|d IH]; intros s e s' L P; [discriminate|].
    rewrite expr_parse_eq in P.
    destruct (parse (bin d) s) as [[[e0 er] s0|er l]| | |] eqn:Pb; cbn [bind] in P; try discriminate.
    injection P as -> ->. apply bin_ok in Pb. destruct Pb as (t & m & ps & tr & P1 & M & _ & R & Rs & ->).
    destruct (term_sound d s t m IH L P1) as (ct & T1 & W).
    assert (length (text m) < budget) as Lm by (rewrite T1, !app_length in L; unfold char in *; lia).
    destruct (chain_sound d m ps s' IH M Lm) as (cps & F & T2).
    exists (ct ++ concat cps). split; [rewrite T1, T2; apply app_assoc|].
    eapply chain_writes; eauto.
  Qed.

  (** *** Completeness *)
  Definition expr_ok d n := forall (s : S) e cs rest, text s = cs ++ rest -> writes e cs -> closed rest ->
    length cs < n -> length (text s) < budget ->
    exists s', ex d s = Ret (Ok e s') /\ text s' = rest /\ reach s s'.

  Notation zeroing := (atom_parse (Str [48%N])).
  Lemma zero_exact (s : S) :
    (forall rest, text s = 48%N :: rest ->
       exists s', zeroing s = Ret (Ok tt s') /\ text s' = rest /\ reach s s') /\
    (forall c rest, text s = c :: rest -> c <> 48%N -> len_utf8 c = 1 -> zeroing s = Ret (Err (MkMiss tt) s)) /\
    (text s = [] -> zeroing s = Ret (Err (MkMiss tt) s)) /\
    (forall c rest, text s = c :: rest -> len_utf8 c <> 1 -> zeroing s = Panic).
  Proof.
    pose proof (atom_one LP 48%N s eq_refl) as H. split; [|split; [|split]].
    - intros rest E. rewrite E in H. rewrite N.eqb_refl in H. exact H.
    - intros c rest E N L. rewrite E in H. apply N.eqb_neq in N. rewrite N, L in H. exact H.
    - intros E. rewrite E in H. exact H.
    - intros c rest E L. rewrite E in H. destruct (N.eqb_spec c 48) as [->|]; [now destruct L|].
      apply Nat.eqb_neq in L. rewrite L in H. exact H.
  Qed.

  Lemma term_ok d n : expr_ok d n -> forall (s : S) t ct rest, text s = ct ++ rest -> writes (ETerm t) ct ->
    length ct <= n -> length (text s) < budget ->
    exists s', tm d s = Ret (Ok t s') /\ text s' = rest /\ reach s s'.
  Proof.
    intros HE s t ct rest T W L Lb. rewrite term_parse_eq.
    destruct (zero_exact s) as (Z1 & Z2 & _).
    inversion W as [|e cs We|]; subst.
    - destruct (Z1 rest T) as (s' & P & T' & R). rewrite P. cbn [bind]. eauto.
    - rewrite (Z2 40%N _ T) by (discriminate || reflexivity). cbn [bind].
      pose proof (atom_one LP 40%N s eq_refl) as A1. rewrite T in A1. cbn [app] in A1. rewrite N.eqb_refl in A1.
      destruct A1 as (s1 & P1 & T1 & R1). change (opening s = Ret (Ok tt s1)) in P1. rewrite P1. cbn [bind].
      rewrite <- app_assoc in T1.
      assert (length (text s1) < budget) as L1.
      { rewrite T in Lb. rewrite T1. rewrite !app_length in *. cbn in *. unfold char in *. lia. }
      destruct (HE s1 e cs ([41%N] ++ rest) T1 We) as (s2 & P2 & T2 & R2).
      { cbn. discriminate. }
      { rewrite !app_length in L. cbn in L. lia. }
      { exact L1. }
      rewrite P2. cbn [bind].
      pose proof (atom_one LP 41%N s2 eq_refl) as A2. rewrite T2 in A2. cbn [app] in A2. rewrite N.eqb_refl in A2.
      destruct A2 as (s3 & P3 & T3 & R3). change (closing s2 = Ret (Ok tt s3)) in P3. rewrite P3. cbn [bind]. exists s3. split; auto. split; auto.
      eapply (reach_trans LR); [exact R1|]. eapply (reach_trans LR); eauto.
  Qed.

  Lemma chain_ok d n : expr_ok d n -> forall ps cps, Forall2 pair_text ps cps ->
    forall (m : S) rest, text m = concat cps ++ rest ->
    length (concat cps) <= n -> length (text m) < budget ->
    exists r, many (pair_ d) m ps r /\ text r = rest /\ reach m r.
  Proof.
    intros HE. induction 1 as [|[o t] cp ps cps Hp F IH]; intros m rest T L Lb.
    - exists m. split; [constructor|]. split; auto. apply (reach_refl LR).
    - destruct Hp as (sp & sp' & ct & S1 & S2 & W & ->). cbn [fst snd] in *.
      cbn [concat] in T, L. rewrite <- !app_assoc in T.
      assert (op_follows (text m) o (ct ++ concat cps ++ rest)) as Fo.
      { exists sp, sp'. repeat split; auto; try apply S1; try apply S2. eapply term_no_space; eauto. }
      destruct (spaced_op_exact m Lb) as [H1 _]. destruct (H1 _ _ Fo) as (q & Po & Tq & Rq).
      assert (length (text q) < budget) as Lq.
      { rewrite T, !app_length in Lb. rewrite Tq, !app_length. unfold char in *. lia. }
      rewrite !app_length in L.
      destruct (term_ok d n HE q t ct _ Tq W) as (r1 & Pt & Tr & Rr); auto; [unfold char in *; lia|].
      assert (length (text r1) < budget) as Lr by (rewrite Tq, !app_length in Lq; rewrite Tr, app_length; unfold char in *; lia).
      destruct (IH r1 rest Tr) as (r & M & T' & R); auto; [unfold char in *; lia|].
      assert (pair_ d m (Succ (o, t) r1)) as Pp by (eapply sq_ok; cbn; eauto).
      exists r. split; [econstructor; eauto|]. split; auto.
      eapply (reach_trans LR); [exact Rq|]. eapply (reach_trans LR); eauto.
  Qed.

  Lemma expr_start d n (s : S) t ct ps cps rest : expr_ok d n ->
    text s = ct ++ concat cps ++ rest -> writes (ETerm t) ct -> Forall2 pair_text ps cps ->
    length (ct ++ concat cps) <= n -> length (text s) < budget ->
    exists m r, tm d s = Ret (Ok t m) /\ many (pair_ d) m ps r /\ text r = rest /\ reach s r.
  Proof.
    intros HE T W F L Lb. rewrite app_length in L.
    destruct (term_ok d n HE s t ct _ T W) as (m & Pt & Tm & Rm); auto; [lia|].
    assert (length (text m) < budget) as Lm by (rewrite T, app_length in Lb; rewrite Tm; unfold char in *; lia).
    destruct (chain_ok d n HE ps cps F m rest Tm) as (r & M & Tr & Rr); auto; [lia|].
    exists m, r. repeat split; auto. eapply (reach_trans LR); eauto.
  Qed.

  Lemma expr_complete d : expr_ok d d.
  Proof.
    induction d as [|d IH]; intros s e cs rest T W C L Lb; [lia|].
    apply writes_chain in W. destruct W as (tr & t & ct & ps & cps & -> & Rs & R & W & F & ->).
    rewrite <- app_assoc in T.
    destruct (expr_start d d s t ct ps cps rest IH T W F) as (m & r & Pt & M & Tr & Rr); auto.
    { lia. }
    exists r. split; [|auto].
    assert (length (text r) < budget) as Lr.
    { rewrite T, !app_length in Lb. rewrite Tr. unfold char in *. lia. }
    destruct (spaced_op_exact r Lr) as [_ K]. destruct K as (er & l & Po & _).
    { rewrite Tr. now apply closed_not_op. }
    destruct (bin_after_term LR expr_from_term expr_from_bin usize_max overflow_checks (closure (tm d)) (spaced_op budget)
          (term_is_forward d) spaced_op_forward op_in_range s t m ps r (Missed (First er)) budget Pt M) as (tr' & Rs' & R' & Pb).
    { pose proof (pairs_length ps cps F). rewrite T, !app_length in Lb. unfold char in *. lia. }
    { apply sq_miss1. split; [|eauto]. cbn. destruct er as [[er|er]|er]; reflexivity. }
    { discriminate. }
    cbn in Pb. rewrite expr_parse_eq. cbn [parse BinExpr]. rewrite Pb. cbn [bind].
    now rewrite (respects_unique tr' tr Rs' Rs ltac:(congruence)).
  Qed.

  (** *** Nothing longer could have been read *)
  Lemma pair_functional d (s : S) v1 m1 v2 m2 : pair_ d s (Succ v1 m1) -> pair_ d s (Succ v2 m2) -> v1 = v2 /\ m1 = m2.
  Proof.
    intros H1 H2. inversion H1; subst. inversion H2; subst. cbn in *.
    repeat match goal with A : ?x = Ret (Ok _ _), B : ?x = Ret (Ok _ _) |- _ => rewrite A in B; injection B as -> -> end.
    auto.
  Qed.
  Lemma pair_missed d (s : S) v m e : pair_ d s (Succ v m) -> pair_ d s (Missed e) -> False.
  Proof.
    intros H1 H2. inversion H1 as [s0 x q y r0 Ho Ht| | | | | |]; subst.
    inversion H2 as [|s0 e0 [_ [l Hl]]| | |s0 x' q' e0 Ho' [_ [l Hl]]| |]; subst; cbn in *.
    - congruence.
    - rewrite Ho in Ho'. injection Ho' as -> ->. congruence.
  Qed.

  Lemma many_prefix d (m : S) ps r : many (pair_ d) m ps r -> forall ps' s' e, many (pair_ d) m ps' s' -> pair_ d s' (Missed e) ->
    exists ps'', many (pair_ d) r ps'' s'.
  Proof.
    induction 1 as [s|s v q ps r Hv M IH]; intros ps' s' e M' Hm.
    - eauto.
    - inversion M' as [|? v' q' ps0 ? Hv' M0]; subst.
      + exfalso. eapply pair_missed; eauto.
      + destruct (pair_functional d s _ _ _ _ Hv Hv') as [<- <-]. eapply IH; eauto.
  Qed.

  Lemma expr_longest d (s : S) e s' e' cs' rest' : length (text s) < d -> length (text s) < budget ->
    ex d s = Ret (Ok e s') -> text s = cs' ++ rest' -> writes e' cs' -> length (text s') <= length rest'.
  Proof.
    destruct d as [|d]; intros Ld Lb P T W; [lia|].
    apply writes_chain in W. destruct W as (tr & t & ct & ps & cps & _ & _ & _ & W & F & ->).
    rewrite <- app_assoc in T.
    assert (length (ct ++ concat cps) <= d) as Ln.
    { rewrite T, !app_length in Ld. rewrite app_length. unfold char in *. lia. }
    destruct (expr_start d d s t ct ps cps rest' (expr_complete d) T W F Ln Lb) as (m & r & Pt & M & Tr & _).
    rewrite expr_parse_eq in P.
    destruct (parse (bin d) s) as [[[e0 er] s0|er l]| | |] eqn:Pb; cbn [bind] in P; try discriminate.
    injection P as -> ->. apply bin_ok in Pb. destruct Pb as (t3 & m3 & ps3 & tr3 & P3 & M3 & Hm & _).
    rewrite Pt in P3. injection P3 as <- <-.
    destruct (many_prefix d m ps r M ps3 s' er M3 Hm) as [ps'' M'].
    destruct (chain_sound d r ps'' s' (expr_sound d) M') as (cps'' & _ & T'').
    { rewrite T, !app_length in Lb. rewrite Tr. unfold char in *. lia. }
    rewrite <- Tr, T'', app_length. unfold char in *. lia.
  Qed.

  (** *** Texts that break it *)
  Lemma term_breaks_no_space cs : term_breaks cs -> no_space cs.
  Proof.
    intros H r E. destruct H as [c rest W|cs _|e cs c rest _ _]; try discriminate.
    injection E as -> _. lia.
  Qed.

  Lemma breaks_chain cs : breaks cs -> term_breaks cs \/
    exists t ct ps cps sp o sp' rest, cs = ct ++ concat cps ++ sp ++ [symbol o] ++ sp' ++ rest /\
      writes (ETerm t) ct /\ Forall2 pair_text ps cps /\ spaces sp /\ spaces sp' /\ term_breaks rest.
  Proof.
    induction 1 as [cs H|t ct sp o sp' cs W S1 S2 _ IH]; [auto|]. right. destruct IH as [IH|IH].
    - exists t, ct, [], [], sp, o, sp', cs. repeat split; auto; try apply S1; apply S2.
    - destruct IH as (t2 & ct2 & ps & cps & sp2 & o2 & sp2' & rest & -> & W2 & F & S3 & S4 & B).
      exists t, ct, ((o, t2) :: ps), ((sp ++ [symbol o] ++ sp' ++ ct2) :: cps), sp2, o2, sp2', rest.
      split; [cbn [concat]; now rewrite <- !app_assoc|]. split; auto. split; [|auto].
      constructor; auto. exists sp, sp', ct2. auto.
  Qed.

  Lemma term_breaks_panics d :
    (forall s : S, length (text s) < d -> length (text s) < budget -> breaks (text s) -> ex d s = Panic) ->
    forall s : S, length (text s) <= d -> length (text s) < budget -> term_breaks (text s) -> tm d s = Panic.
  Proof.
    intros HE s L Lb B. rewrite term_parse_eq. destruct (zero_exact s) as (_ & Z & _ & Zw).
    remember (text s) as cs eqn:Ts.
    destruct B as [c rest W|cs Hc|e cs c rest We W].
    - rewrite (Zw c rest eq_refl); [reflexivity|]. apply Nat.eqb_neq. exact (wide_not_one 3 (le_n 3) c W).
    - rewrite (Z 40%N cs eq_refl) by (discriminate || reflexivity). cbn [bind].
      pose proof (atom_one LP 40%N s eq_refl) as A1. rewrite <- Ts in A1. rewrite N.eqb_refl in A1.
      destruct A1 as (s1 & P1 & T1 & _). change (opening s = Ret (Ok tt s1)) in P1. rewrite P1. cbn [bind].
      rewrite HE; [reflexivity| | |rewrite T1; exact Hc]; rewrite T1; cbn in L, Lb; unfold char in *; lia.
    - rewrite (Z 40%N _ eq_refl) by (discriminate || reflexivity). cbn [bind].
      pose proof (atom_one LP 40%N s eq_refl) as A1. rewrite <- Ts in A1. rewrite N.eqb_refl in A1.
      destruct A1 as (s1 & P1 & T1 & _). change (opening s = Ret (Ok tt s1)) in P1. rewrite P1. cbn [bind].
      cbn in L, Lb. rewrite app_length in L, Lb. cbn in L, Lb.
      destruct (expr_complete d s1 e cs (c :: rest) T1 We) as (s2 & P2 & T2 & _).
      { cbn. intros ->. lia. }
      { unfold char in *. lia. }
      { rewrite T1, app_length. cbn. unfold char in *. lia. }
      rewrite P2. cbn [bind].
      pose proof (atom_one LP 41%N s2 eq_refl) as A2. rewrite T2 in A2.
      destruct (N.eqb_spec c 41) as [->|_]; [lia|]. rewrite (wide_not_one 3 (le_n 3) c W) in A2.
      change (closing s2 = Panic) in A2. rewrite A2. reflexivity.
  Qed.

  Lemma expr_breaks_panics d : forall s : S, length (text s) < d -> length (text s) < budget ->
    breaks (text s) -> ex d s = Panic.
  Proof.
    induction d as [|d IH]; intros s L Lb B; [lia|].
    apply breaks_chain in B. destruct B as [B|(t & ct & ps & cps & sp & o & sp' & rest & T & W & F & S1 & S2 & B)].
    - rewrite expr_parse_eq. cbn [parse BinExpr]. unfold bin_expr_parse, parse_impl. cbn [parse closure].
      rewrite (term_breaks_panics d IH s) by (auto; lia). reflexivity.
    - destruct (expr_start d d s t ct ps cps _ (expr_complete d) T W F) as (m & r & Pt & M & Tr & _).
      { rewrite T, !app_length in L. rewrite app_length. unfold char in *. lia. }
      { exact Lb. }
      assert (length (text r) < budget) as Lr. { rewrite T, !app_length in Lb. rewrite Tr, !app_length. unfold char in *. lia. }
      destruct (spaced_op_exact r Lr) as [K _].
      destruct (K o rest) as (q & Po & Tq & _).
      { exists sp, sp'. repeat split; auto; try apply S1; try apply S2. now apply term_breaks_no_space. }
      assert (tm d q = Panic) as Pq.
      { apply (term_breaks_panics d IH); rewrite Tq; auto; rewrite T, !app_length in L, Lb; unfold char in *; lia. }
      destruct (bin_after_term LR expr_from_term expr_from_bin usize_max overflow_checks (closure (tm d)) (spaced_op budget)
          (term_is_forward d) spaced_op_forward op_in_range s t m ps r (Crash CPanic) budget Pt M) as (tr & _ & _ & Pb).
      { pose proof (pairs_length ps cps F). rewrite T, !app_length in Lb. unfold char in *. lia. }
      { eapply sq_crash2; cbn; eauto. }
      { discriminate. }
      cbn in Pb. rewrite expr_parse_eq. cbn [parse BinExpr]. rewrite Pb. reflexivity.
  Qed.

  (** *** It breaks on no others *)
  Lemma term_answers_exactly d :
    (forall s, length (text s) < d -> length (text s) < budget -> answers_exactly (ex d) breaks s) ->
    forall s, length (text s) <= d -> length (text s) < budget -> answers_exactly (tm d) term_breaks s.
  Proof.
    intros HE s L Lb. unfold answers_exactly. rewrite term_parse_eq.
    destruct (zero_exact s) as (Z1 & Z2 & Z3 & Z4).
    pose proof (atom_one LP 40%N s eq_refl) as A1. destruct (text s) as [|c rest1] eqn:Ts.
    { rewrite (Z3 eq_refl). cbn [bind]. change (opening s = Ret (Err (MkMiss tt) s)) in A1. rewrite A1. cbn [bind]. eauto. }
    destruct (Nat.eq_dec (len_utf8 c) 1) as [Lc|Lc].
    2:{ rewrite (Z4 c rest1 eq_refl Lc). right. split; auto. apply tb_wide. now apply wide. }
    destruct (N.eq_dec c 48) as [->|N48].
    { destruct (Z1 rest1 eq_refl) as (s' & P & _). rewrite P. cbn [bind]. eauto. }
    rewrite (Z2 c rest1 eq_refl N48 Lc). cbn [bind].
    destruct (N.eqb_spec c 40) as [->|Nc].
    2:{ rewrite Lc in A1. change (opening s = Ret (Err (MkMiss tt) s)) in A1. rewrite A1. cbn [bind]. eauto. }
    destruct A1 as (s1 & P1 & T1 & _). change (opening s = Ret (Ok tt s1)) in P1. rewrite P1. cbn [bind].
    cbn in L, Lb. rewrite <- T1 in *.
    destruct (HE s1) as [[r2 P2]|[P2 Tr]]; try (unfold char in *; lia).
    2:{ rewrite P2. right. split; auto. now apply tb_inside. }
    rewrite P2. cbn [bind]. destruct r2 as [e s2|er l]; [|eauto].
    assert (length (text s1) < budget) as L1 by (unfold char in *; lia).
    destruct (expr_sound d s1 e s2 L1 P2) as (cs & T2 & W).
    pose proof (atom_one LP 41%N s2 eq_refl) as A2. destruct (text s2) as [|c2 rest2] eqn:Ts2.
    { change (closing s2 = Ret (Err (MkMiss tt) s2)) in A2. rewrite A2. cbn [bind]. eauto. }
    destruct (N.eqb_spec c2 41) as [->|Nc2].
    - destruct A2 as (s3 & P3 & T3 & _). change (closing s2 = Ret (Ok tt s3)) in P3. rewrite P3. cbn [bind]. eauto.
    - change (closing s2 = if len_utf8 c2 =? 1 then Ret (Err (MkMiss tt) s2) else Panic) in A2. rewrite A2.
      destruct (Nat.eqb_spec (len_utf8 c2) 1) as [E|E]; cbn [bind]; [eauto|]. right. split; auto.
      rewrite T2. apply (tb_close e); auto. now apply wide.
  Qed.

  Lemma breaks_after_chain ps cps : Forall2 pair_text ps cps -> forall t ct sp o sp' rest, writes (ETerm t) ct ->
    spaces sp -> spaces sp' -> breaks rest -> breaks (ct ++ concat cps ++ sp ++ [symbol o] ++ sp' ++ rest).
  Proof.
    induction 1 as [|[o2 t2] cp ps cps Hp F IH]; intros t ct sp o sp' rest W S1 S2 B.
    - cbn [concat app]. now apply (b_after t).
    - destruct Hp as (sp2 & sp2' & ct2 & S3 & S4 & W2 & ->). cbn [fst snd concat] in *. rewrite <- !app_assoc.
      apply (b_after t); auto. now apply (IH t2).
  Qed.

  Lemma expr_answers_exactly d : forall s : S, length (text s) < d -> length (text s) < budget ->
    answers_exactly (ex d) breaks s.
  Proof.
    induction d as [|d IH]; intros s L Lb; [lia|].
    unfold answers_exactly. rewrite expr_parse_eq.
    assert (length (text s) <= d) as L' by lia.
    destruct (term_answers_exactly d IH s L' Lb) as [[[t m|e l] Pt]|[Pt Tr]].
    2:{ cbn [parse BinExpr]. unfold bin_expr_parse, parse_impl. cbn [parse closure]. rewrite Pt. cbn. eauto. }
    2:{ cbn [parse BinExpr]. unfold bin_expr_parse, parse_impl. cbn [parse closure]. rewrite Pt. cbn. right. split; auto. now constructor. }
    pose proof (expr_sound d) as ES.
    destruct (term_sound d s t m ES Lb Pt) as (ct & T1 & W).
    assert (length (text m) < budget) as Lm by (rewrite T1, !app_length in Lb; unfold char in *; lia).
    destruct (chain_total (closure (tm d)) (spaced_op budget) budget m) as [(ps & r & M & E)|(ps & r & v & M & E & Hp & Hn)].
    { exfalso. destruct (chain_sound d m ps r ES M Lm) as (cps & F & T2).
      pose proof (pairs_length ps cps F). rewrite T2, app_length in Lm. unfold char in *. lia. }
    destruct (chain_sound d m ps r ES M Lm) as (cps & F & T2).
    destruct (bin_after_term LR expr_from_term expr_from_bin usize_max overflow_checks (closure (tm d)) (spaced_op budget)
          (term_is_forward d) spaced_op_forward op_in_range s t m ps r v budget Pt M E Hp Hn) as (tr & _ & _ & Pb).
    destruct v as [o q|e|e|k].
    - exfalso. eapply Hn. reflexivity.
    - cbn in Pb. cbn [parse BinExpr]. rewrite Pb. cbn. eauto.
    - destruct Pb as [_ [l Pb]]. cbn [parse BinExpr] in *. rewrite Pb. cbn. eauto.
    - assert (length (text r) < budget) as Lr by (rewrite T2, app_length in Lm; unfold char in *; lia).
      assert (k = CPanic /\ exists sp o sp' rest, spaces sp /\ spaces sp' /\ term_breaks rest /\
                text r = sp ++ [symbol o] ++ sp' ++ rest) as [-> (sp & o & sp' & rest & S1 & S2 & Br & T3)].
      { inversion Hp as [| | |s0 k0 Ho| | |s0 o q k0 Ho Ht]; subst.
        - exfalso. destruct (spaced_op_sound r _ Lr eq_refl) as [(o & q & E' & _)|(er & l & E' & _)];
            destruct k; unfold behaves in Ho; rewrite Ho in E'; discriminate.
        - unfold behaves in Ho. destruct (spaced_op_sound r _ Lr Ho) as [(o' & q' & E' & Fo & _)|(er & l & E' & _)]; [|discriminate].
          injection E' as <- <-. apply op_follows_text in Fo. destruct Fo as (sp & sp' & S1 & S2 & T3).
          assert (length (text q) <= d) as Lq.
          { rewrite T1, T2, T3, !app_length in L'. unfold char in *. lia. }
          assert (length (text q) < budget) as Lq'.
          { rewrite T3, !app_length in Lr. unfold char in *. lia. }
          destruct (term_answers_exactly d IH q Lq Lq') as [[r' P']|[P' Tr]].
          + destruct k; unfold behaves in Ht; cbn [parse closure] in Ht; rewrite Ht in P'; discriminate.
          + split; [destruct k; unfold behaves in Ht; cbn [parse closure] in Ht; rewrite Ht in P'; congruence|].
            exists sp, o, sp', (text q). auto. }
      right. cbn in Pb. cbn [parse BinExpr]. rewrite Pb. split; auto. rewrite T1, T2, T3.
      eapply breaks_after_chain; eauto. now constructor.
  Qed.

  Lemma expr_not_refused d (s : S) : length (text s) < d -> length (text s) < budget -> starts_expression (text s) ->
    (exists e s', ex d s = Ret (Ok e s')) \/ ex d s = Panic.
  Proof.
    destruct d as [|d]; intros Ld Lb (e & cs & rest & T & W); [lia|].
    apply writes_chain in W. destruct W as (tr & t2 & ct2 & ps2 & cps2 & _ & _ & _ & W2 & F2 & ->).
    rewrite <- app_assoc in T.
    assert (length (ct2 ++ concat cps2) <= d) as Ln.
    { rewrite T, !app_length in Ld. rewrite app_length. unfold char in *. lia. }
    destruct (expr_start d d s t2 ct2 ps2 cps2 rest (expr_complete d) T W2 F2 Ln Lb) as (m & r & Pt & M & Tr & _).
    destruct (expr_answers_exactly (Datatypes.S d) s Ld Lb) as [[[e0 s0|er l] P]|[P _]]; eauto.
    exfalso. rewrite expr_parse_eq in P.
    pose proof (expr_sound d) as ES.
    assert (length (text m) < budget) as Lm.
    { destruct (term_sound d s t2 m ES Lb Pt) as (ctm & Tm & _).
      rewrite Tm, !app_length in Lb. unfold char in *. lia. }
    destruct (chain_total (closure (tm d)) (spaced_op budget) budget m) as [(ps0 & r0 & M0 & E0)|(ps0 & r0 & v & M0 & E0 & Hp & Hn)].
    { destruct (chain_sound d m ps0 r0 ES M0 Lm) as (cps0 & F0 & T0).
      pose proof (pairs_length ps0 cps0 F0). rewrite T0, app_length in Lm. unfold char in *. lia. }
    destruct (bin_after_term LR expr_from_term expr_from_bin usize_max overflow_checks (closure (tm d)) (spaced_op budget)
          (term_is_forward d) spaced_op_forward op_in_range s t2 m ps0 r0 v budget Pt M0 E0 Hp Hn) as (tr0 & _ & _ & Pb).
    destruct v as [o q|e0|e0|k].
    - eapply Hn. reflexivity.
    - cbn in Pb. cbn [parse BinExpr] in P. rewrite Pb in P. discriminate.
    - destruct Pb as [Tm _]. destruct e0 as [e0|e0]; cbn in Tm.
      + destruct e0 as [[e0|e0]|e0]; discriminate.
      + discriminate.
    - destruct k; cbn in Pb; cbn [parse BinExpr] in P; rewrite Pb in P; discriminate.
  Qed.

  Lemma expr_exact d (s : S) : length (text s) < d -> length (text s) < budget ->
    (ex d s = Panic <-> breaks (text s)) /\
    ((exists e s', ex d s = Ret (Ok e s')) <-> ~ breaks (text s) /\ starts_expression (text s)) /\
    ((exists m s', ex d s = Ret (Err m s')) <-> ~ breaks (text s) /\ ~ starts_expression (text s)).
  Proof.
    intros Ld Lb. pose proof (expr_breaks_panics d s Ld Lb) as K1. pose proof (expr_not_refused d s Ld Lb) as K2.
    pose proof (expr_sound d s) as K3.
    destruct (expr_answers_exactly d s Ld Lb) as [[[e s'|m l] P]|[P B]]; rewrite P in *; split; [|split| |split| |split].
    - split; [discriminate|]. intros B. now apply K1.
    - split; [intros _; split|eauto].
      + intros B. specialize (K1 B). discriminate.
      + destruct (K3 e s' Lb eq_refl) as (cs & T & W). exists e, cs, (text s'). auto.
    - split; [intros (? & ? & [=])|]. intros [_ N]. exfalso. apply N.
      destruct (K3 e s' Lb eq_refl) as (cs & T & W). exists e, cs, (text s'). auto.
    - split; [discriminate|]. intros B. now apply K1.
    - split; [intros (? & ? & [=])|]. intros [_ Se]. destruct (K2 Se) as [(? & ? & [=])|[=]].
    - split; [intros _; split|eauto].
      + intros B. specialize (K1 B). discriminate.
      + intros Se. destruct (K2 Se) as [(? & ? & [=])|[=]].
    - split; auto.
    - split; [intros (? & ? & [=])|]. tauto.
    - split; [intros (? & ? & [=])|]. tauto.
  Qed.

  (** *** An operator without a term behind it is given back *)
  Lemma no_term_missed d (s : S) : no_term (text s) -> exists l, tm d s = Ret (Err (MkMiss tt) l).
  Proof.
    intros N. rewrite term_parse_eq. destruct (zero_exact s) as (_ & Z2 & Z3 & _).
    pose proof (atom_one LP 40%N s eq_refl) as A1. destruct (text s) as [|c rest] eqn:T.
    - rewrite (Z3 eq_refl). cbn [bind]. change (opening s = Ret (Err (MkMiss tt) s)) in A1. rewrite A1. cbn [bind]. eauto.
    - destruct N as (W & _ & N1 & N2).
      assert (len_utf8 c = 1) as Lc by (unfold len_utf8; destruct (N.ltb_spec c 128); [reflexivity|lia]).
      rewrite (Z2 c rest eq_refl N2 Lc). cbn [bind].
      apply N.eqb_neq in N1. rewrite N1, Lc in A1. change (opening s = Ret (Err (MkMiss tt) s)) in A1. rewrite A1. cbn [bind]. eauto.
  Qed.

  Lemma expr_gives_back d (s : S) e cs sp o sp' rest : text s = cs ++ sp ++ [symbol o] ++ sp' ++ rest ->
    writes e cs -> spaces sp -> spaces sp' -> no_term rest -> length cs < d -> length (text s) < budget ->
    exists s', ex d s = Ret (Ok e s') /\ text s' = sp ++ [symbol o] ++ sp' ++ rest /\ reach s s'.
  Proof.
    destruct d as [|d]; intros T W S1 S2 N L Lb; [lia|].
    apply writes_chain in W. destruct W as (tr & t & ct & ps & cps & -> & Rs & R & W & F & ->).
    rewrite <- app_assoc in T.
    destruct (expr_start d d s t ct ps cps _ (expr_complete d) T W F) as (m & r & Pt & M & Tr & Rr); auto.
    { lia. }
    exists r. split; [|auto].
    assert (length (text r) < budget) as Lr.
    { rewrite T, !app_length in Lb. rewrite Tr, !app_length. unfold char in *. lia. }
    destruct (spaced_op_exact r Lr) as [K _]. destruct (K o rest) as (q & Po & Tq & _).
    { exists sp, sp'. repeat split; auto; try apply S1; try apply S2. intros y E. subst rest. destruct N as (_ & N & _). now apply N. }
    destruct (no_term_missed d q) as [l Pq]; [now rewrite Tq|].
    destruct (bin_after_term LR expr_from_term expr_from_bin usize_max overflow_checks (closure (tm d)) (spaced_op budget)
          (term_is_forward d) spaced_op_forward op_in_range s t m ps r (Missed (Last (MkMiss tt))) budget Pt M) as (tr' & Rs' & R' & Pb).
    { pose proof (pairs_length ps cps F). rewrite T, !app_length in Lb. unfold char in *. lia. }
    { eapply sq_miss2; [exact Po|]. split; [reflexivity|eauto]. }
    { discriminate. }
    cbn in Pb. rewrite expr_parse_eq. cbn [parse BinExpr]. rewrite Pb. cbn [bind].
    now rewrite (respects_unique tr' tr Rs' Rs ltac:(congruence)).
  Qed.
End Parsers.

(** ** The texts of the tests *)
Lemma chained_stands n : stands_right (chained n) Til.
Proof. destruct n; cbn; lia. Qed.
Lemma chained_writes n : writes (chained n) (chained_text n).
Proof.
  induction n as [|n IH]; [apply w_zero|].
  assert (spaces [32%N]) as Sp by (split; [discriminate|repeat constructor]).
  exact (w_bin _ Til _ [48%N] (chained_text n) [32%N] [32%N] w_zero IH Sp Sp ltac:(cbn; lia) (chained_stands n)).
Qed.
