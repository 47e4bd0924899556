(** * L_Brackets: lemmas for C107. *)
From Verif Require Import S_Brackets L_Comb L_BinExpr.
From Coq Require Import Arith Lia List.
Import ListNotations.

#[local] Hint Constructors writes : core.

Section Texts.
  Context {A Op : Type} {OP : Operator Op}.
  Notation tok := (token A Op).
  Notation ex := (tree A Op).

  Lemma stands_left_ok c o : stands_left c o = true <-> left_ok c o.
  Proof.
    unfold stands_left, left_ok. rewrite Bool.orb_true_iff, Bool.andb_true_iff, Nat.ltb_lt, Nat.eqb_eq.
    destruct (associativity c); split; intros [?|[? ?]]; auto; discriminate.
  Qed.
  Lemma stands_right_ok c o : stands_right c o = true <-> right_ok c o.
  Proof.
    unfold stands_right, right_ok. rewrite Bool.orb_true_iff, Bool.andb_true_iff, Nat.ltb_lt, Nat.eqb_eq.
    destruct (associativity o); split; intros [?|[? ?]]; auto; discriminate.
  Qed.

  Lemma show_writes (e : ex) : writes e (show e) (root e).
  Proof.
    induction e as [a|l IHl o r IHr]; cbn [show root]; [constructor|].
    destruct (root l) as [cl|] eqn:El; destruct (root r) as [cr|] eqn:Er.
    - destruct (stands_left cl o) eqn:SL; destruct (stands_right cr o) eqn:SR.
      + eapply wr_node; eauto; intros c [= <-]; [now apply stands_left_ok|now apply stands_right_ok].
      + eapply wr_node; eauto; intros c; [intros [= <-]; now apply stands_left_ok|discriminate].
      + eapply wr_node; eauto; intros c; [discriminate|intros [= <-]; now apply stands_right_ok].
      + eapply wr_node; eauto; discriminate.
    - destruct (stands_left cl o) eqn:SL.
      + eapply wr_node; eauto; [intros c [= <-]; now apply stands_left_ok|discriminate].
      + eapply wr_node; eauto; discriminate.
    - destruct (stands_right cr o) eqn:SR.
      + eapply wr_node; eauto; [discriminate|intros c [= <-]; now apply stands_right_ok].
      + eapply wr_node; eauto; discriminate.
    - eapply wr_node; eauto; discriminate.
  Qed.

  Lemma visible (e : ex) cs o : writes e cs o -> o = None \/ o = root e.
  Proof. destruct 1; cbn; auto. Qed.

  Lemma shortest (e : ex) cs o : writes e cs o ->
    length (show e) <= length cs /\ (length (show e) = length cs -> cs = show e) /\
    (o = None -> root e <> None -> length (show e) + 2 <= length cs /\ (length (show e) + 2 = length cs -> cs = Open :: show e ++ [Close])).
  Proof.
    induction 1 as [a|e cs o W IH|l o r cl cr ol or W1 IH1 W2 IH2 L R].
    - cbn. repeat split; auto; try lia; tauto.
    - destruct IH as (H1 & H2 & _). rewrite ?app_length in *. cbn [length] in *. rewrite ?app_length in *. cbn [length].
      split; [lia|]. split; [lia|]. intros _ _. split; [lia|]. intros E. rewrite H2; [reflexivity|lia].
    - destruct IH1 as (A1 & A2 & A3). destruct IH2 as (B1 & B2 & B3).
      set (sl := if match root l with Some c => stands_left c o | None => true end then show l else Open :: show l ++ [Close]).
      set (sr := if match root r with Some c => stands_right c o | None => true end then show r else Open :: show r ++ [Close]).
      assert (length sl <= length cl /\ (length sl = length cl -> cl = sl)) as (C1 & C2).
      { unfold sl. destruct (root l) as [c|] eqn:E; [|auto]. destruct (stands_left c o) eqn:SL; [auto|].
        assert (ol = None) as ->.
        { destruct (visible _ _ _ W1) as [|V0]; [auto|]. rewrite E in V0. specialize (L c V0). apply stands_left_ok in L. congruence. }
        destruct (A3 eq_refl) as (D1 & D2); [discriminate|]. cbn [length]. rewrite app_length. cbn [length]. split; [lia|].
        intros D. apply D2. lia. }
      assert (length sr <= length cr /\ (length sr = length cr -> cr = sr)) as (C3 & C4).
      { unfold sr. destruct (root r) as [c|] eqn:E; [|auto]. destruct (stands_right c o) eqn:SL; [auto|].
        assert (or = None) as ->.
        { destruct (visible _ _ _ W2) as [|V0]; [auto|]. rewrite E in V0. specialize (R c V0). apply stands_right_ok in R. congruence. }
        destruct (B3 eq_refl) as (D1 & D2); [discriminate|]. cbn [length]. rewrite app_length. cbn [length]. split; [lia|].
        intros D. apply D2. lia. }
      cbn [show]. fold sl sr. rewrite !app_length. cbn [length]. split; [lia|]. split; [|discriminate].
      intros E. rewrite C2, C4 by lia. reflexivity.
  Qed.

  (** ** A text as a chain of terms *)
  Notation piece := (ex * list tok)%type.
  Definition pair_text (p : Op * piece) : list tok := Sym (fst p) :: snd (snd p).
  Definition chain_text (x : piece) (ps : list (Op * piece)) : list tok := snd x ++ flat_map pair_text ps.
  Definition is_term (x : piece) : Prop := writes (fst x) (snd x) None.

  Lemma chain_text_app x ps o y qs :
    chain_text x (ps ++ (o, y) :: qs) = chain_text x ps ++ Sym o :: chain_text y qs.
  Proof. unfold chain_text. rewrite flat_map_app. cbn [flat_map pair_text fst snd]. rewrite <- !app_assoc. reflexivity. Qed.

  Lemma as_chain (e : ex) cs o : writes e cs o ->
    exists tr : tree piece Op, respects tr /\ root tr = o /\ build fst Node tr = e /\
      cs = chain_text (fst (reading tr)) (snd (reading tr)) /\
      is_term (fst (reading tr)) /\ Forall (fun p => is_term (snd p)) (snd (reading tr)).
  Proof.
    induction 1 as [a|e cs o W IH|l o r cl cr ol or W1 IH1 W2 IH2 L R].
    - exists (Leaf (Leaf a, [Atom a])). cbn. repeat split; auto. unfold is_term. cbn. auto.
    - exists (Leaf (e, Open :: cs ++ [Close])). cbn. unfold chain_text. cbn. rewrite app_nil_r. repeat split; auto.
      unfold is_term. cbn. eauto.
    - destruct IH1 as (t1 & R1 & O1 & B1 & C1 & F1 & G1). destruct IH2 as (t2 & R2 & O2 & B2 & C2 & F2 & G2).
      exists (Node t1 o t2). cbn [respects root build reading fst snd]. rewrite chain_text_app, <- C1, <- C2, O1, O2, B1, B2.
      repeat split; auto. apply Forall_app. split; [auto|]. constructor; auto.
  Qed.
  Lemma of_chain (tr : tree piece Op) : respects tr ->
    is_term (fst (reading tr)) -> Forall (fun p => is_term (snd p)) (snd (reading tr)) ->
    writes (build fst Node tr) (chain_text (fst (reading tr)) (snd (reading tr))) (root tr).
  Proof.
    induction tr as [x|l IHl o r IHr]; cbn [respects root build reading fst snd].
    - intros _ H _. unfold chain_text. cbn. now rewrite app_nil_r.
    - intros (Rl & Rr & Ol & Or) H F. apply Forall_app in F. destruct F as (F1 & F2).
      inversion F2 as [|p ps Fy Fs]; subst. cbn [snd] in Fy. rewrite chain_text_app. eapply wr_node; eauto.
  Qed.

  Lemma term_starts (e : ex) cs r : writes e cs None -> exists t l, cs ++ r = t :: l /\ (forall o, t <> Sym o) /\ t <> Close.
  Proof. inversion 1; subst; cbn; eexists; eexists; (split; [reflexivity|]); split; intros; discriminate. Qed.

  (** A term is not the beginning of another; nor is a chain to its end. *)
  Definition terms_agree n := forall (e e' : ex) cs cs' r r', length cs <= n ->
    writes e cs None -> writes e' cs' None -> cs ++ r = cs' ++ r' -> cs = cs' /\ e = e'.
  Definition texts_agree n := forall (e e' : ex) cs cs' o o' r r', length cs <= n ->
    writes e cs o -> writes e' cs' o' -> no_operator r -> no_operator r' -> cs ++ r = cs' ++ r' -> cs = cs' /\ e = e' .

  Lemma chains_agree n : terms_agree n -> forall ps ps' (x x' : piece) r r',
    length (chain_text x ps) <= n -> is_term x -> is_term x' ->
    Forall (fun p => is_term (snd p)) ps -> Forall (fun p => is_term (snd p)) ps' -> no_operator r -> no_operator r' ->
    chain_text x ps ++ r = chain_text x' ps' ++ r' -> x = x' /\ ps = ps'.
  Proof.
    intros TA ps. induction ps as [|[o y] ps IH]; intros ps' x x' r r' Len X X' F F' Nr Nr' E.
    - unfold chain_text in *. cbn [flat_map] in *. rewrite ?app_nil_r in *. rewrite <- app_assoc in E.
      destruct (TA _ _ _ _ _ _ Len X X' E) as (E1 & E2). rewrite <- E1 in E. apply app_inv_head in E.
      assert (x = x') as -> by (destruct x, x'; cbn in *; congruence). split; [reflexivity|].
      destruct ps' as [|[o' y'] ps']; [reflexivity|]. cbn in E. subst r. contradiction.
    - unfold chain_text in *. cbn [flat_map] in *. rewrite <- !app_assoc in E.
      assert (length (snd x) <= n) as Lx by (rewrite !app_length in Len; lia).
      destruct (TA _ _ _ _ _ _ Lx X X' E) as (E1 & E2). rewrite <- E1 in E. apply app_inv_head in E.
      assert (x = x') as -> by (destruct x, x'; cbn in *; congruence).
      inversion F as [|? ? Fy Fs]; subst. cbn [snd] in Fy.
      destruct ps' as [|[o' y'] ps'].
      { cbn in E. subst r'. contradiction. }
      inversion F' as [|? ? Fy' Fs']; subst. cbn [snd] in Fy'.
      cbn [flat_map pair_text fst snd app] in E. injection E as -> E.
      destruct (IH ps' y y' r r') as (-> & ->); auto.
      + rewrite !app_length in *. cbn [pair_text snd length] in Len. lia.
      + rewrite <- !app_assoc in *. exact E.
  Qed.
  Lemma agree_texts n : terms_agree n -> texts_agree n.
  Proof.
    intros TA e e' cs cs' o o' r r' Len W W' Nr Nr' E.
    destruct (as_chain _ _ _ W) as (t1 & R1 & O1 & B1 & C1 & F1 & G1).
    destruct (as_chain _ _ _ W') as (t2 & R2 & O2 & B2 & C2 & F2 & G2).
    rewrite C1 in Len, E. rewrite C2 in E.
    destruct (chains_agree n TA _ _ _ _ _ _ Len F1 F2 G1 G2 Nr Nr' E) as (X1 & X2).
    assert (t1 = t2) as ->.
    { eapply respects_unique; eauto. destruct (reading t1), (reading t2); cbn in *; congruence. }
    split; congruence.
  Qed.
  Lemma agree_terms n : terms_agree n.
  Proof.
    induction n as [n IH] using lt_wf_ind. intros e e' cs cs' r r' Len W W' E.
    inversion W as [a|? cs0 o0 W0|]; subst; inversion W' as [a'|? cs0' o0' W0'|]; subst.
    - injection E as -> E. auto.
    - discriminate.
    - discriminate.
    - cbn in E. injection E as E. rewrite <- !app_assoc in E. cbn in Len. rewrite app_length in Len. cbn in Len.
      destruct (agree_texts (n - 1)) with (e := e) (e' := e') (cs := cs0) (cs' := cs0') (o := o0) (o' := o0')
        (r := [Close] ++ r) (r' := [Close] ++ r') as (-> & ->); cbn; auto; try lia.
      apply IH. lia.
  Qed.
  Lemma unambiguous (e e' : ex) cs cs' o o' r r' :
    writes e cs o -> writes e' cs' o' -> no_operator r -> no_operator r' -> cs ++ r = cs' ++ r' -> cs = cs' /\ e = e'.
  Proof. intros W W' Nr Nr' E. exact (agree_texts (length cs) (agree_terms _) e e' cs cs' o o' r r' (le_n _) W W' Nr Nr' E). Qed.
End Texts.

(** ** The parser *)
Section Parser.
  Context {S An : Type} {RS : RewindSequence S An} {reach : S -> S -> Prop} (LR : lawful_rewind reach).
  Context {A Op EA EO EB EC : Type} {OP : Operator Op} {PA : ParseError EA} {PO : ParseError EO} {PB : ParseError EB} {PC : ParseError EC}.
  Context (atom : dparser S A EA) (op : dparser S Op EO) (opening : dparser S unit EB) (closing : dparser S unit EC).
  Context (usize_max : nat) (overflow_checks : bool).
  Context (tokens : S -> list (token A Op)).
  Context (La : lexes tokens atom (fun t => match t with Atom a => Some a | _ => None end)).
  Context (Lo : lexes tokens op (fun t => match t with Sym o => Some o | _ => None end)).
  Context (Lb : lexes tokens opening (fun t => match t with Open => Some tt | _ => None end)).
  Context (Lc : lexes tokens closing (fun t => match t with Close => Some tt | _ => None end)).
  Context (Fa : forward reach (parse atom)) (Fo : forward reach (parse op)) (Fb : forward reach (parse opening)) (Fc : forward reach (parse closing)).
  Context (Hrange : forall s o r, parse op s = Ret (Ok o r) -> in_range usize_max o).
  Notation ex := (tree A Op).
  Notation tm := (term atom opening closing).
  Notation xp := (expr atom op opening closing usize_max overflow_checks).

  Lemma lex_inv {O E} {PE : ParseError E} (p : dparser S O E) pick s o s' : lexes tokens p pick -> parse p s = Ret (Ok o s') ->
    exists t, tokens s = t :: tokens s' /\ pick t = Some o.
  Proof.
    intros L H. specialize (L s). cbv zeta in L. destruct (tokens s) as [|t l].
    - destruct L as (e & q & E1 & _). congruence.
    - destruct (pick t) as [o'|] eqn:P.
      + destruct L as (q & E1 & E2). rewrite E1 in H. injection H as -> ->. exists t. split; congruence.
      + destruct L as (e & q & E1 & _). congruence.
  Qed.
  Lemma lex_ok {O E} {PE : ParseError E} (p : dparser S O E) pick s t l o : lexes tokens p pick -> tokens s = t :: l -> pick t = Some o ->
    exists s', behaves (parse p) s (Succ o s') /\ tokens s' = l.
  Proof. intros L H P. specialize (L s). cbv zeta in L. rewrite H, P in L. exact L. Qed.
  Lemma lex_no {O E} {PE : ParseError E} (p : dparser S O E) pick s : lexes tokens p pick ->
    match tokens s with t :: _ => pick t = None | [] => True end -> exists e, behaves (parse p) s (Missed e).
  Proof.
    intros L H. specialize (L s). cbv zeta in L. cbn.
    destruct (tokens s) as [|t l]; [|rewrite H in L]; destruct L as (e & q & E1 & E2); eauto.
  Qed.

  Lemma lex_eats {O E} {PE : ParseError E} (p : dparser S O E) pick s o s' : lexes tokens p pick -> parse p s = Ret (Ok o s') ->
    length (tokens s) = Datatypes.S (length (tokens s')).
  Proof. intros L H. destruct (lex_inv p pick s o s' L H) as (t & -> & _). reflexivity. Qed.

  (** *** term *)
  Lemma tm_forward (X : dparser S ex (Miss unit)) : forward reach (parse X) -> forward reach (parse (tm X)).
  Proof.
    intros F. apply map_err_forward. cbn [parse Or]. apply (or_forward LR); [auto|].
    apply map_forward. cbn [parse Join]. apply (join_forward LR); auto. apply (join_forward LR); auto.
  Qed.
  Lemma xp_forward fuel d : forward reach (parse (xp fuel d)).
  Proof.
    induction d as [|d IH]; [intros s r H; discriminate|]. cbn [expr]. apply map_err_forward. apply map_forward.
    apply (bin_forward LR); auto. now apply tm_forward.
  Qed.
  Lemma tm_first (X : dparser S ex (Miss unit)) s a r : behaves (parse atom) s (Succ a r) -> parse (tm X) s = Ret (Ok (First a) r).
  Proof. cbn. unfold map_err_parse. cbn. unfold or_parse. intros ->. reflexivity. Qed.
  Lemma tm_rest (X : dparser S ex (Miss unit)) s e : behaves (parse atom) s (Missed e) ->
    parse (tm X) s = (r <- parse (Join (Join opening X) closing) s ;;
      match r with Ok v q => Ret (Ok (Last (snd (fst v))) q) | Err _ q => Ret (Err (MkMiss tt) q) end).
  Proof.
    intros (T0 & l & H). cbn. unfold map_err_parse. cbn. unfold or_parse. cbv zeta. rewrite H. cbn [bind]. rewrite T0. cbn [negb].
    rewrite (rewind_err LR _ Fa H). cbn [bind]. cbn [parse Map]. unfold map_parse. cbn [parse Join].
    destruct (join_parse _ _ s) as [[[[u v] w] q|e' q]| | |]; cbn; auto. destruct (negb (should_terminate e')); reflexivity.
  Qed.
  Lemma tm_second (X : dparser S ex (Miss unit)) s err m e q r : behaves (parse atom) s (Missed err) -> behaves (parse opening) s (Succ tt m) ->
    parse X m = Ret (Ok e q) -> behaves (parse closing) q (Succ tt r) -> parse (tm X) s = Ret (Ok (Last e) r).
  Proof.
    intros H1 H2 H3 H4. rewrite (tm_rest X s err H1). cbn. unfold join_parse. cbn [parse Join]. unfold join_parse.
    cbn in H2, H4. rewrite H2. cbn [bind]. rewrite H3. cbn. rewrite H4. reflexivity.
  Qed.
  Lemma atom_answers s : (exists a r, parse atom s = Ret (Ok a r)) \/ exists e, behaves (parse atom) s (Missed e).
  Proof.
    pose proof (La s) as L. cbv zeta in L. cbn. destruct (tokens s) as [|[a|o| | |] l]; [right|left|right..].
    2: { destruct L as (q & -> & _). eauto. }
    all: destruct L as (e & q & H & T0); eauto.
  Qed.
  Lemma tm_inv (X : dparser S ex (Miss unit)) s x r : parse (tm X) s = Ret (Ok x r) ->
    (exists a, x = First a /\ tokens s = Atom a :: tokens r) \/
    (exists e m q, x = Last e /\ tokens s = Open :: tokens m /\ parse X m = Ret (Ok e q) /\ tokens q = Close :: tokens r).
  Proof.
    intros H. destruct (atom_answers s) as [(a & q & E)|(e & E)].
    - rewrite (tm_first X s a q E) in H. injection H as <- <-. left. exists a. split; [reflexivity|].
      destruct (lex_inv _ _ _ _ _ La E) as (t & -> & P). destruct t; try discriminate. injection P as ->. reflexivity.
    - right. rewrite (tm_rest X s e E) in H. cbn in H. unfold join_parse in H. cbn [parse Join] in H. unfold join_parse in H.
      destruct (parse opening s) as [[u m|]| | |] eqn:H1; try discriminate. cbn [bind] in H.
      destruct (parse X m) as [[v q|]| | |] eqn:H2; try discriminate. cbn in H.
      destruct (parse closing q) as [[w q'|]| | |] eqn:H3; try discriminate. cbn in H. injection H as <- <-.
      exists v, m, q. split; [reflexivity|].
      destruct (lex_inv _ _ _ _ _ Lb H1) as (t & -> & P). destruct t; try discriminate.
      destruct (lex_inv _ _ _ _ _ Lc H3) as (t & -> & P'). destruct t; try discriminate. auto.
  Qed.

  (** *** Trees of different leaves *)
  Fixpoint tmap {T U} (f : T -> U) (tr : tree T Op) : tree U Op :=
    match tr with Leaf t => Leaf (f t) | Node l o r => Node (tmap f l) o (tmap f r) end.
  Lemma tmap_root {T U} (f : T -> U) tr : root (tmap f tr) = root tr.
  Proof. destruct tr; reflexivity. Qed.
  Lemma tmap_respects {T U} (f : T -> U) tr : respects tr -> respects (tmap f tr).
  Proof. induction tr as [t|l IHl o r IHr]; cbn; [auto|]. intros (? & ? & ? & ?). rewrite !tmap_root. auto. Qed.
  Lemma tmap_reading {T U} (f : T -> U) tr :
    reading (tmap f tr) = (f (fst (reading tr)), map (fun p => (fst p, f (snd p))) (snd (reading tr))).
  Proof.
    induction tr as [t|l IHl o r IHr]; cbn; [auto|]. rewrite IHl, IHr. cbn. rewrite map_app. reflexivity.
  Qed.
  Lemma tmap_build {T} (f : T -> ex) tr : build f Node tr = build (fun e => e) Node (tmap f tr).
  Proof. induction tr as [t|l IHl o r IHr]; cbn; congruence. Qed.
  Lemma same_build {T U} (f : T -> ex) (g : U -> ex) tr tr' : respects tr -> respects tr' ->
    f (fst (reading tr)) = g (fst (reading tr')) ->
    map (fun p => (fst p, f (snd p))) (snd (reading tr)) = map (fun p => (fst p, g (snd p))) (snd (reading tr')) ->
    build f Node tr = build g Node tr'.
  Proof.
    intros R R' E1 E2. rewrite (tmap_build f), (tmap_build g). f_equal. eapply respects_unique.
    - now apply tmap_respects.
    - now apply tmap_respects.
    - rewrite !tmap_reading. congruence.
  Qed.

  (** *** What is read means what is returned *)
  Notation pair_ d fuel := (sequence (behaves (parse op)) (behaves (parse (tm (xp fuel d))))).
  Definition sound_at fuel d := forall s e s', parse (xp fuel d) s = Ret (Ok e s') -> exists cs o, tokens s = cs ++ tokens s' /\ writes e cs o.
  Lemma tm_sound fuel d s x r : sound_at fuel d -> parse (tm (xp fuel d)) s = Ret (Ok x r) ->
    exists cs, tokens s = cs ++ tokens r /\ writes (of_term x) cs None.
  Proof.
    intros SA H. destruct (tm_inv _ _ _ _ H) as [(a & -> & ->)|(e & m & q & -> & E1 & E2 & E3)].
    - exists [Atom a]. split; [reflexivity|]. cbn. auto.
    - destruct (SA _ _ _ E2) as (cs & o & E4 & W). exists (Open :: cs ++ [Close]). rewrite E1, E4, E3. cbn. rewrite <- app_assoc.
      split; [reflexivity|eauto].
  Qed.
  Lemma pairs_sound fuel d : sound_at fuel d -> forall m ps r, many (pair_ d fuel) m ps r ->
    exists qs, tokens m = flat_map pair_text qs ++ tokens r /\ Forall (fun p => is_term (snd p)) qs /\
      map (fun p => (fst p, of_term (snd p))) ps = map (fun p => (fst p, fst (snd p))) qs.
  Proof.
    intros SA m ps r. induction 1 as [s|s v m ps r Hv Hm (qs & E & F & M)].
    - exists []. repeat split; auto.
    - inversion Hv as [? o q x ? H1 H2| | | | | |]; subst.
      destruct (lex_inv _ _ _ _ _ Lo H1) as (t & E1 & P). destruct t; try discriminate. injection P as ->.
      destruct (tm_sound _ _ _ _ _ SA H2) as (cs & E2 & W).
      exists ((o, (of_term x, cs)) :: qs). cbn [flat_map pair_text fst snd map]. rewrite E1, E2, E, M, <- app_assoc. cbn. repeat split; auto.
  Qed.
  Lemma xp_sound fuel d : sound_at fuel d.
  Proof.
    induction d as [|d IH]; intros s e s' H; [discriminate|].
    cbn [expr parse MapErr] in H. unfold map_err_parse in H. cbn [parse Map] in H. unfold map_parse in H.
    destruct (parse (BinExpr _ _ _ _ _ _ _) s) as [[[e' why] q|]| | |] eqn:B; try discriminate. cbn in H. injection H as -> ->.
    assert (O0 : operator_expression of_term Node (behaves (parse (tm (xp fuel d)))) (behaves (parse op)) s (Succ (e, why) s')).
    { eapply (bin_sound LR); [apply tm_forward, xp_forward|exact Fo|exact Hrange|exact B|discriminate]. }
    inversion O0 as [? t m ps ? ? tr H1 H2 R1 R2| | | | |]; subst.
    inversion H2 as [? ? ? ? Hm He| |]; subst.
    destruct (tm_sound _ _ _ _ _ IH H1) as (cs & E1 & W1).
    destruct (pairs_sound _ _ IH _ _ _ Hm) as (qs & E2 & F & M).
    destruct (tree_exists (T := ex * list (token A Op)) (of_term t, cs) qs) as (tr' & RD & RS').
    exists (chain_text (of_term t, cs) qs), (root tr'). split.
    - rewrite E1, E2. unfold chain_text. cbn. now rewrite <- app_assoc.
    - replace (build of_term Node tr) with (build fst Node tr').
      + assert (Y1 : (of_term t, cs) = fst (reading tr')) by now rewrite RD. assert (Y2 : qs = snd (reading tr')) by now rewrite RD.
        rewrite Y1, Y2. apply of_chain; [auto|rewrite <- Y1; exact W1|rewrite <- Y2; exact F].
      + apply same_build; auto; rewrite RD, R1; cbn; auto.
  Qed.

  (** *** Everything that means something is read *)
  Definition found_at fuel d := forall s e cs o r, writes e cs o -> tokens s = cs ++ r -> no_operator r -> length cs < d -> length cs < fuel ->
    exists s', parse (xp fuel d) s = Ret (Ok e s') /\ tokens s' = r.
  Lemma tm_found fuel d : found_at fuel d -> forall s e cs r, writes e cs None -> tokens s = cs ++ r -> length cs <= d -> length cs <= fuel ->
    exists x s', parse (tm (xp fuel d)) s = Ret (Ok x s') /\ of_term x = e /\ tokens s' = r.
  Proof.
    intros FA s e cs r W E Ld Lf. inversion W as [a|? cs0 o0 W0|]; subst.
    - destruct (lex_ok _ _ _ _ _ a La E eq_refl) as (s' & H & T0). exists (First a), s'. rewrite (tm_first _ _ _ _ H). auto.
    - destruct (lex_no _ _ s La) as (err & M); [rewrite E; reflexivity|].
      destruct (lex_ok _ _ _ _ _ tt Lb E eq_refl) as (m & H1 & T1).
      cbn [length] in Ld, Lf. rewrite app_length in Ld, Lf. cbn [length] in Ld, Lf.
      destruct (FA m e cs0 o0 ([Close] ++ r) W0) as (q & H2 & T2); [rewrite T1; symmetry; apply app_assoc|exact Logic.I|lia|lia|].
      destruct (lex_ok _ _ _ _ _ tt Lc T2 eq_refl) as (s' & H3 & T3).
      exists (Last e), s'. rewrite (tm_second _ _ _ _ _ _ _ M H1 H2 H3). auto.
  Qed.
  Lemma pairs_found fuel d : found_at fuel d -> forall qs m r, Forall (fun p => is_term (snd p)) qs ->
    tokens m = flat_map pair_text qs ++ r -> length (flat_map pair_text qs) <= d -> length (flat_map pair_text qs) <= fuel ->
    exists ps r', many (pair_ d fuel) m ps r' /\ tokens r' = r /\ length ps <= length (flat_map pair_text qs) /\
      map (fun p => (fst p, of_term (snd p))) ps = map (fun p => (fst p, fst (snd p))) qs.
  Proof.
    intros FA qs. induction qs as [|[o y] qs IH]; intros m r F E Ld Lf.
    - exists [], m. repeat split; auto. constructor.
    - inversion F as [|? ? Fy Fs]; subst. cbn [snd] in Fy.
      cbn [flat_map] in E, Ld, Lf |- *. change (pair_text (o, y)) with (Sym o :: snd y) in *.
      cbn [app length] in E, Ld, Lf |- *. rewrite app_length in Ld, Lf.
      destruct (lex_ok _ _ _ _ _ o Lo E eq_refl) as (q & H1 & T1). rewrite <- app_assoc in T1.
      destruct (tm_found fuel d FA q (fst y) (snd y) _ Fy T1) as (x & q' & H2 & X & T2); [lia|lia|].
      destruct (IH q' r Fs T2) as (ps & r' & Hm & T3 & L & M); [lia|lia|].
      exists ((o, x) :: ps), r'. cbn [map fst snd length]. rewrite M, X, app_length. repeat split; auto; [|lia].
      econstructor; [|exact Hm]. econstructor; [exact H1|exact H2].
  Qed.
  Lemma xp_bin fuel d s x r : behaves (parse (BinExpr of_term Node usize_max overflow_checks fuel (tm (xp fuel d)) op)) s (Succ x r) ->
    parse (xp fuel (Datatypes.S d)) s = Ret (Ok (fst x) r).
  Proof. cbn [behaves]. intros B. cbn [expr parse MapErr]. unfold map_err_parse. cbn [parse Map]. unfold map_parse. rewrite B. reflexivity. Qed.
  Lemma xp_found fuel d : found_at fuel d.
  Proof.
    induction d as [|d IH]; intros s e cs o r W E Nr Ld Lf; [lia|].
    destruct (as_chain _ _ _ W) as (tr & R1 & O1 & B1 & C1 & F1 & G1).
    destruct (reading tr) as [x qs] eqn:RD. cbn [fst snd] in *. unfold chain_text in C1.
    assert (length cs = length (snd x) + length (flat_map pair_text qs)) as LC by (rewrite C1; apply app_length).
    rewrite C1, <- app_assoc in E.
    destruct (tm_found fuel d IH s (fst x) (snd x) _ F1 E) as (t & m & H1 & X & T1); [lia|lia|].
    destruct (pairs_found fuel d IH qs m r G1 T1) as (ps & r' & Hm & T2 & L & M); [lia|lia|].
    destruct (lex_no _ _ r' Lo) as (err & Mi).
    { rewrite T2. destruct r as [|[] r]; cbn in Nr; tauto || reflexivity. }
    destruct (bin_after_term LR of_term Node usize_max overflow_checks (tm (xp fuel d)) op) with (s := s) (t := t) (m := m) (ps := ps) (r := r')
      (v := @Missed S (Op * Either A ex) (Either EO (Miss unit)) (First err)) (fuel := fuel) as (tr' & R2 & RD' & B); auto.
    - apply tm_forward, xp_forward.
    - inversion F1; destruct x as [x0 x1]; cbn in *; subst; cbn in *; lia.
    - now apply sq_miss1.
    - discriminate.
    - exists r'. rewrite (xp_bin _ _ _ _ _ B). cbn [fst]. split; [|exact T2]. do 2 f_equal. rewrite <- B1.
      apply same_build; auto; rewrite RD, RD'; cbn; auto.
  Qed.

  (** *** There is always an answer *)
  Definition answered {O} (p : pfun S O (Miss unit)) s := (exists x r, p s = Ret (Ok x r)) \/ exists l, p s = Ret (Err (MkMiss tt) l).
  Definition answers_at fuel d := forall s, length (tokens s) < d -> length (tokens s) < fuel -> answered (parse (xp fuel d)) s.
  Lemma lex_answers {O E} {PE : ParseError E} (p : dparser S O E) pick s : lexes tokens p pick ->
    (exists o r, parse p s = Ret (Ok o r)) \/ exists e, behaves (parse p) s (Missed e).
  Proof.
    intros L. specialize (L s). cbv zeta in L. cbn. destruct (tokens s) as [|t l].
    - destruct L as (e & q & H & T0). eauto.
    - destruct (pick t).
      + destruct L as (q & -> & _). eauto.
      + destruct L as (e & q & H & T0). eauto.
  Qed.
  Lemma tm_answers fuel d : answers_at fuel d -> forall s, length (tokens s) <= d -> length (tokens s) <= fuel ->
    answered (parse (tm (xp fuel d))) s.
  Proof.
    intros AA s Ld Lf. destruct (atom_answers s) as [(a & r & H)|(e & M)].
    - left. exists (First a), r. now apply tm_first.
    - unfold answered. rewrite (tm_rest _ _ _ M). cbn [parse Join]. unfold join_parse. cbn [parse Join]. unfold join_parse.
      destruct (lex_answers _ _ s Lb) as [([] & m & H1)|(e1 & _ & l & H1)]; rewrite H1; cbn; [|eauto].
      pose proof (lex_eats _ _ _ _ _ Lb H1) as L1.
      destruct (AA m) as [(x & q & H2)|(l & H2)]; [lia|lia|rewrite H2; cbn|rewrite H2; cbn; eauto].
      destruct (lex_answers _ _ q Lc) as [([] & r & H3)|(e3 & _ & l & H3)]; rewrite H3; cbn; eauto.
  Qed.
  Lemma tm_eats fuel d s x r : parse (tm (xp fuel d)) s = Ret (Ok x r) -> length (tokens r) < length (tokens s).
  Proof.
    intros H. destruct (tm_sound _ _ _ _ _ (xp_sound fuel d) H) as (cs & -> & W). rewrite app_length.
    assert (0 < length cs) by (inversion W; cbn; lia). lia.
  Qed.
  Lemma pairs_eat fuel d m ps r : many (pair_ d fuel) m ps r -> length ps + length (tokens r) <= length (tokens m).
  Proof.
    induction 1 as [s|s v m ps r Hv Hm IH]; cbn; [lia|].
    inversion Hv as [? o q x ? H1 H2| | | | | |]; subst. apply tm_eats in H2. pose proof (lex_eats _ _ _ _ _ Lo H1). lia.
  Qed.
  Lemma pairs_end fuel d m : answers_at fuel d -> length (tokens m) <= d -> length (tokens m) <= fuel ->
    exists ps r e, many (pair_ d fuel) m ps r /\ pair_ d fuel r (Missed e).
  Proof.
    intros AA Ld Lf.
    destruct (chain_total (tm (xp fuel d)) op (Datatypes.S (length (tokens m))) m)
      as [(ps & r & Hm & L)|(ps & r & v & Hm & _ & Hp & Hn)].
    - apply pairs_eat in Hm. lia.
    - exists ps, r. pose proof (pairs_eat _ _ _ _ _ Hm) as L.
      destruct (lex_answers _ _ r Lo) as [(o & q & H1)|(e & H1)].
      + pose proof (lex_eats _ _ _ _ _ Lo H1). destruct (tm_answers fuel d AA q) as [(x & q' & H2)|(l & H2)]; [lia|lia| |].
        * exfalso. assert (v = Succ (o, x) q') by (eapply behaves_functional; apply join_parse_complete; [exact Hp|econstructor; [exact H1|exact H2]]).
          exact (Hn _ _ H0).
        * exists (Last (MkMiss tt)). split; [exact Hm|]. eapply sq_miss2; [exact H1|]. cbn. eauto.
      + exists (First e). split; [exact Hm|]. now apply sq_miss1.
  Qed.
  Lemma many_app {O E} (a : behaviour S O E) s vs m ws r : many a s vs m -> many a m ws r -> many a s (vs ++ ws) r.
  Proof. induction 1; intros; cbn; [auto|]. econstructor; eauto. Qed.
  (** From the end of a chain that is read, the parser goes on to the end of a longer one. *)
  Lemma goes_on fuel d s t m ps r : answers_at fuel d -> length (tokens s) <= d -> length (tokens s) <= fuel ->
    parse (tm (xp fuel d)) s = Ret (Ok t m) -> many (pair_ d fuel) m ps r ->
    exists e s', parse (xp fuel (Datatypes.S d)) s = Ret (Ok e s') /\ length (tokens s') <= length (tokens r).
  Proof.
    intros AA Ld Lf Ht Hm. pose proof (tm_eats _ _ _ _ _ Ht). pose proof (pairs_eat _ _ _ _ _ Hm).
    destruct (pairs_end fuel d r AA) as (qs & q & e & Hm' & Hp); [lia|lia|].
    pose proof (many_app _ _ _ _ _ _ Hm Hm') as Hm2. pose proof (pairs_eat _ _ _ _ _ Hm2). pose proof (pairs_eat _ _ _ _ _ Hm').
    destruct (bin_after_term LR of_term Node usize_max overflow_checks (tm (xp fuel d)) op) with (s := s) (t := t) (m := m) (ps := ps ++ qs) (r := q)
      (v := @Missed S (Op * Either A ex) (Either EO (Miss unit)) e) (fuel := fuel) as (tr' & R2 & RD' & B); auto.
    - apply tm_forward, xp_forward.
    - lia.
    - discriminate.
    - eexists. exists q. split; [exact (xp_bin _ _ _ _ _ B)|]. lia.
  Qed.
  Lemma xp_answers fuel d : answers_at fuel d.
  Proof.
    induction d as [|d IH]; intros s Ld Lf; [lia|].
    destruct (tm_answers fuel d IH s) as [(t & m & H)|(l & H)]; [lia|lia| |].
    - left. destruct (goes_on fuel d s t m [] m IH) as (e & s' & E & _); eauto; try lia. constructor.
    - right. exists l. cbn [expr parse MapErr]. unfold map_err_parse. cbn [parse Map]. unfold map_parse. cbn [parse BinExpr].
      unfold bin_expr_parse, parse_impl. rewrite H. reflexivity.
  Qed.
  Lemma xp_longest fuel d s e cs o r : length (tokens s) < d -> length (tokens s) < fuel -> writes e cs o -> tokens s = cs ++ r ->
    exists e' s', parse (xp fuel d) s = Ret (Ok e' s') /\ length (tokens s') <= length r.
  Proof.
    intros Ld Lf W E. destruct d as [|d]; [lia|].
    destruct (as_chain _ _ _ W) as (tr & R1 & O1 & B1 & C1 & F1 & G1).
    destruct (reading tr) as [x qs] eqn:RD. cbn [fst snd] in *. unfold chain_text in C1.
    assert (length (tokens s) = length (snd x) + length (flat_map pair_text qs) + length r) as LC
      by (rewrite E, C1, !app_length; lia).
    rewrite C1, <- app_assoc in E.
    destruct (tm_found fuel d (xp_found fuel d) s (fst x) (snd x) _ F1 E) as (t & m & H1 & X & T1); [lia|lia|].
    destruct (pairs_found fuel d (xp_found fuel d) qs m r G1 T1) as (ps & r' & Hm & T2 & L & M); [lia|lia|].
    rewrite <- T2. eapply goes_on; eauto; try lia. apply xp_answers.
  Qed.
End Parser.
